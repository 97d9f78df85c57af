(** Generated by tools/gen.py from FastDiagImplProps.v: property theorems only. *)
From Verif Require Import Prelude NdArr Grids_model Spec SpecLin SpecDiag LinAlg Cplx FastDiag_model FDProofs FastDiagProofs FastDiagProps FourierProofs FastDiagCalc.
From Verif Require Import FastDiagImplProps.
Local Open Scope Z_scope.
Set Implicit Arguments.

(** C21. The three implementations agree: for every func that treats a real number like the complex number it is, any two implementations whose requirements are met (matmul, fft, rfft) return the same array for every input. *)
Theorem implementations_agree : forall tpu eigh func ops i1 i2, ops <> [] -> real_on_reals func ->
  usable eigh ops i1 -> usable eigh ops i2 ->
  exists F1 F2, transform tpu eigh func ops true true (Some i1) = Ok F1 /\ transform tpu eigh func ops true true (Some i2) = Ok F2 /\
    forall rhs, shp rhs = sizes ops -> exists r1 r2, F1 rhs = Ok r1 /\ F2 rhs = Ok r2 /\ shp r1 = sizes ops /\ aeq r1 r2.
Proof. exact (@implementations_agree_lem). Qed.
Print Assumptions implementations_agree.

(** C21. Whatever the implementation, transform(func, operators) multiplies every eigenvector of the summed operator by func(eigenvalue). *)
Theorem transform_eigenvector : forall tpu eigh func ops i w x, ops <> [] -> real_on_reals func -> usable eigh ops i ->
  shp w = sizes ops -> (forall ix, inb (sizes ops) ix -> separable ops (get w) ix = (x * get w ix)%R) ->
  exists F r, transform tpu eigh func ops true true (Some i) = Ok F /\ F w = Ok r /\ shp r = sizes ops /\
    forall ix, inb (sizes ops) ix -> get r ix = (onR func x * get w ix)%R.
Proof. exact (@transform_eigenvector_lem). Qed.
Print Assumptions transform_eigenvector.

(** C21. pseudoinverse solves the system with every implementation (matmul, fft, rfft): if every eigenvalue of the summed operator is zero or larger in absolute value than the cutoff, then for every right-hand side b orthogonal to its kernel, x = pinv(b) satisfies A x = b. *)
Theorem pseudoinverse_solves_every_implementation : forall tpu eigh ops i cutoff, ops <> [] -> (0 <= cutoff)%R -> usable eigh ops i ->
  (forall x, eigenvalue_of ops x -> x = 0 \/ cutoff < Rabs x)%R ->
  exists F, pseudoinverse tpu eigh ops true true (Some i) cutoff = Ok F /\
    forall b, shp b = sizes ops ->
      (forall w, (forall ix, inb (sizes ops) ix -> separable ops w ix = 0%R) -> inner (sizes ops) w (get b) = 0%R) ->
      exists x, F b = Ok x /\ shp x = sizes ops /\ forall ix, inb (sizes ops) ix -> separable ops (get x) ix = get b ix.
Proof. exact (@pseudoinverse_solves_every_implementation_lem). Qed.
Print Assumptions pseudoinverse_solves_every_implementation.

(** C21. The default implementation outside TPUs is rfft when the last axis has even length and matmul otherwise; on TPUs matmul up to 1024 cells per axis, else the same choice. *)
Theorem default_implementation : forall eigh func l A herm circ, 
  let ops := l ++ [A] in
  let even := negb (Nat.odd (nth 0 (shp A) 0%nat)) in
  forallb square ops = true ->
  transform false eigh func ops herm circ None = transform false eigh func ops herm circ (Some (if even then Rfft else Matmul)) /\
  ((forall B, In B ops -> (Z.of_nat (nth 0 (shp B) 0%nat) <= 1024)) ->
     transform true eigh func ops herm circ None = transform true eigh func ops herm circ (Some Matmul)) /\
  ((exists B, In B ops /\ (1024 < Z.of_nat (nth 0 (shp B) 0%nat))) ->
     transform true eigh func ops herm circ None = transform true eigh func ops herm circ (Some (if even then Rfft else Matmul))).
Proof. exact (@default_implementation_lem). Qed.
Print Assumptions default_implementation.

(** C21. The rfft implementation returns the same array as the fft one for every func that commutes with complex conjugation, for any square operators (circulant or not) with an even last axis. *)
Theorem rfft_equals_fft : forall tpu eigh func ops herm, ops <> [] -> forallb square ops = true -> allpos (sizes ops) ->
  (forall l A, ops = l ++ [A] -> Nat.odd (nth 0 (shp A) 0%nat) = false) ->
  (forall z, onC func (Cconj z) = Cconj (onC func z)) ->
  exists F1 F2, transform tpu eigh func ops herm true (Some Fft) = Ok F1 /\ transform tpu eigh func ops herm true (Some Rfft) = Ok F2 /\
    forall rhs, shp rhs = sizes ops -> exists r1 r2, F1 rhs = Ok r1 /\ F2 rhs = Ok r2 /\ shp r1 = sizes ops /\ aeq r1 r2.
Proof. exact (@rfft_equals_fft_lem). Qed.
Print Assumptions rfft_equals_fft.

(** The hypotheses are met by a concrete case. *)
Example implementations_agree_ex : [fdA; fdA] <> [] /\ real_on_reals (pinv_fun 1) /\ usable fdE [fdA; fdA] Matmul /\ usable fdE [fdA; fdA] Fft /\ usable fdE [fdA; fdA] Rfft.
Proof. exact (@implementations_agree_ex_lem). Qed.

(** The hypotheses are met by a concrete case. *)
Example transform_eigenvector_ex : exists w : arr R, usable fdE [fdA; fdA] Rfft /\ shp w = sizes [fdA; fdA] /\ get w [0; 0] <> 0%R /\
  forall ix, inb (sizes [fdA; fdA]) ix -> separable [fdA; fdA] (get w) ix = ((-2) * get w ix)%R.
Proof. exact (@transform_eigenvector_ex_lem). Qed.

(** The hypotheses are met by a concrete case. *)
Example pseudoinverse_solves_every_implementation_ex : usable fdE [fdA; fdA] Rfft /\ (forall x, eigenvalue_of [fdA; fdA] x -> x = 0 \/ 1 < Rabs x)%R.
Proof. exact (@pseudoinverse_solves_every_implementation_ex_lem). Qed.

(** The hypotheses are met by a concrete case. *)
Example default_implementation_ex : forallb square ([fdA] ++ [fdA]) = true /\ (forall B, In B ([fdA] ++ [fdA]) -> (Z.of_nat (nth 0 (shp B) 0%nat) <= 1024)).
Proof. exact (@default_implementation_ex_lem). Qed.

(** The hypotheses are met by a concrete case. *)
Example rfft_equals_fft_ex : forallb square [fdA; fdA] = true /\ allpos (sizes [fdA; fdA]) /\ (forall z, onC (mkufun (fun x => x * x)%R (fun z => Cmul z z)) (Cconj z) = Cconj (onC (mkufun (fun x => x * x)%R (fun z => Cmul z z)) z)).
Proof. exact (@rfft_equals_fft_ex_lem). Qed.
