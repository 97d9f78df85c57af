(** Generated by tools/gen.py from FastDiagProps.v: property theorems only. *)
From Verif Require Import Prelude NdArr Grids_model Spec SpecLin LinAlg Cplx FastDiag_model FDProofs FastDiagProofs.
From Verif Require Import FastDiagProps.
Local Open Scope Z_scope.
Set Implicit Arguments.

(** C21. With orthonormal eigendecompositions of the operators, transform(func, operators) with the matmul implementation maps every array to the sum over the joint eigenvectors of func(sum of the eigenvalues) times the component along that eigenvector; it rejects arrays of another shape. *)
Theorem fast_diag_matmul_spec : forall tpu eigh func ops circ, ops <> [] -> Forall (fun A => eigen_decomposition A (eigh A)) ops ->
  exists F, transform tpu eigh func ops true circ (Some Matmul) = Ok F /\
    (forall rhs, shp rhs <> sizes ops -> F rhs = Err EValue) /\
    forall rhs, shp rhs = sizes ops -> exists r, F rhs = Ok r /\ shp r = sizes ops /\
      forall ix, inb (sizes ops) ix ->
        get r ix = asum (sizes ops) (fun kx => onR func (joint_value (map eigh ops) kx) * joint_vector (map eigh ops) kx ix *
                                              inner (sizes ops) (joint_vector (map eigh ops) kx) (get rhs))%R.
Proof. exact (@fast_diag_matmul_spec_lem). Qed.
Print Assumptions fast_diag_matmul_spec.

(** C21. The joint eigenvectors are eigenvectors of the sum of the operators applied along their axes, with the summed eigenvalue, so that func acts on its spectrum. *)
Theorem fast_diag_joint_eigenvectors : forall eigh ops, Forall (fun A => eigen_decomposition A (eigh A)) ops ->
  forall kx ix, inb (sizes ops) kx -> inb (sizes ops) ix ->
    separable ops (joint_vector (map eigh ops) kx) ix = (joint_value (map eigh ops) kx * joint_vector (map eigh ops) kx ix)%R.
Proof. exact (@fast_diag_joint_eigenvectors_lem). Qed.
Print Assumptions fast_diag_joint_eigenvectors.

(** C21. pseudoinverse solves the system: if every summed eigenvalue is zero or larger in absolute value than the cutoff, then for every right-hand side b orthogonal to the kernel of the summed operator, x = pinv(b) satisfies A x = b. *)
Theorem pseudoinverse_solves : forall tpu eigh ops circ cutoff, ops <> [] -> (0 <= cutoff)%R -> Forall (fun A => eigen_decomposition A (eigh A)) ops ->
  (forall kx, inb (sizes ops) kx -> joint_value (map eigh ops) kx = 0 \/ cutoff < Rabs (joint_value (map eigh ops) kx))%R ->
  exists F, pseudoinverse tpu eigh ops true circ (Some Matmul) cutoff = Ok F /\
    forall b, shp b = sizes ops ->
      (forall w, (forall ix, inb (sizes ops) ix -> separable ops w ix = 0%R) -> inner (sizes ops) w (get b) = 0%R) ->
      exists x, F b = Ok x /\ shp x = sizes ops /\ forall ix, inb (sizes ops) ix -> separable ops (get x) ix = get b ix.
Proof. exact (@pseudoinverse_solves_lem). Qed.
Print Assumptions pseudoinverse_solves.

(** C21. pseudoinverse is a pseudo-inverse whatever the cutoff: P A P = P, as operators on arrays. *)
Theorem pseudoinverse_pap : forall tpu eigh ops circ cutoff F b x y, ops <> [] -> (0 <= cutoff)%R -> Forall (fun A => eigen_decomposition A (eigh A)) ops ->
  pseudoinverse tpu eigh ops true circ (Some Matmul) cutoff = Ok F ->
  shp b = sizes ops -> F b = Ok x ->
  F (mkarr (sizes ops) (separable ops (get x))) = Ok y -> aeq y x.
Proof. exact (@pseudoinverse_pap_lem). Qed.
Print Assumptions pseudoinverse_pap.

(** C21. The dispatch: matmul requires hermitian, fft and rfft require circulant, rfft an even last axis, and unknown implementation names or non-square operators raise ValueError. *)
Theorem fast_diag_dispatch : forall tpu eigh func ops herm circ i,
  (forallb square ops = false -> transform tpu eigh func ops herm circ i = Err EValue) /\
  transform tpu eigh func ops false circ (Some Matmul) = Err EValue /\
  transform tpu eigh func ops herm false (Some Fft) = Err EValue /\
  transform tpu eigh func ops herm false (Some Rfft) = Err EValue /\
  transform tpu eigh func ops herm circ (Some OtherImpl) = Err EValue /\
  (forall l A, ops = l ++ [A] -> Nat.odd (nth 0 (shp A) 0%nat) = true -> transform tpu eigh func ops herm circ (Some Rfft) = Err EValue).
Proof. exact (@fast_diag_dispatch_lem). Qed.
Print Assumptions fast_diag_dispatch.

(** The hypotheses are met by a concrete case. *)
Example fast_diag_matmul_spec_ex : [fdA; fdA] <> [] /\ Forall (fun A => eigen_decomposition A (fdE A)) [fdA; fdA].
Proof. exact (@fast_diag_matmul_spec_ex_lem). Qed.

(** The hypotheses are met by a concrete case. *)
Example fast_diag_joint_eigenvectors_ex : Forall (fun A => eigen_decomposition A (fdE A)) [fdA; fdA] /\ inb (sizes [fdA; fdA]) [1; 0] /\ joint_value (map fdE [fdA; fdA]) [1; 0] = (-2)%R.
Proof. exact (@fast_diag_joint_eigenvectors_ex_lem). Qed.

(** The hypotheses are met by a concrete case. *)
Example pseudoinverse_solves_ex : Forall (fun A => eigen_decomposition A (fdE A)) [fdA; fdA] /\
  (forall kx, inb (sizes [fdA; fdA]) kx -> joint_value (map fdE [fdA; fdA]) kx = 0 \/ 1 < Rabs (joint_value (map fdE [fdA; fdA]) kx))%R /\
  (forall w, (forall ix, inb (sizes [fdA; fdA]) ix -> separable [fdA; fdA] w ix = 0%R) -> inner (sizes [fdA; fdA]) w (fun ix => IZR (nth 0 ix 0 + nth 1 ix 0 - 1)) = 0%R).
Proof. exact (@pseudoinverse_solves_ex_lem). Qed.

(** The hypotheses are met by a concrete case. *)
Example pseudoinverse_pap_ex : exists F b x y, pseudoinverse false fdE [fdA; fdA] true false (Some Matmul) 1 = Ok F /\ shp b = sizes [fdA; fdA] /\ F b = Ok x /\ F (mkarr (sizes [fdA; fdA]) (separable [fdA; fdA] (get x))) = Ok y.
Proof. exact (@pseudoinverse_pap_ex_lem). Qed.

(** The hypotheses are met by a concrete case. *)
Example fast_diag_dispatch_ex : forallb square [fdA; fdL] = false /\ Nat.odd (nth 0 (shp (afull [3%nat; 3%nat] 0%R)) 0%nat) = true.
Proof. exact (@fast_diag_dispatch_ex_lem). Qed.
