(** * C21: the three implementations of fast diagonalisation *)
From Verif Require Import Prelude NdArr Grids_model Spec SpecLin SpecDiag LinAlg Cplx FastDiag_model FDProofs FastDiagProofs FastDiagProps FourierProofs FastDiagCalc.
Set Implicit Arguments.
Local Open Scope Z_scope.

Lemma circ_square ops : Forall circulant ops -> forallb square ops = true.
Proof.
  intros H. apply forallb_forall. intros A HA. rewrite Forall_forall in H. destruct (H A HA) as (n & _ & SA & _). unfold square. rewrite SA. apply Nat.eqb_refl.
Qed.
(** One statement for all implementations. *)
Lemma transform_calc tpu eigh func ops i : ops <> [] -> usable eigh ops i -> real_on_reals func ->
  exists F sp FF, transform tpu eigh func ops true true (Some i) = Ok F /\ fcalc ops sp FF /\
    forall rhs, shp rhs = sizes ops -> exists r, F rhs = Ok r /\ shp r = sizes ops /\
      forall ix, inb (sizes ops) ix -> get r ix = FF (onR func) (get rhs) ix.
Proof.
  intros Hne Hus Hf. destruct i; cbn [usable] in Hus.
  - unfold transform. rewrite (@mat_square eigh ops Hus). cbn [negb bind].
    destruct (matmul_prep eigh Hne Hus func) as (F & EF & _ & HF). exists F. eexists. exists (fdop eigh ops). split; [exact EF|]. split; [apply matmul_fcalc; exact Hus | exact HF].
  - destruct Hus as (Hc & Hs). unfold transform. rewrite (circ_square Hc). cbn [negb bind].
    destruct (@fft_prep func ops Hne) as (F & EF & _ & HF). exists F. eexists. exists (fun f => ffop ops (rlift f)).
    split; [exact EF|]. split; [apply fft_fcalc; auto|]. intros rhs Hr. destruct (HF rhs Hr) as (r & Er & Sr & Vr). exists r.
    split; [exact Er|]. split; [exact Sr|]. intros ix Hix. rewrite (Vr ix Hix). unfold ffop. f_equal.
    destruct (dfts_inv (map mrows ops)) as (HVW & _). apply (@fop_fun _ _ C1 _ _ _ _ _ _ HVW); auto. intros kx _.
    rewrite (clam_real Hc Hs kx). rewrite Hf. reflexivity.
  - destruct Hus as (Hc & Hs & Hev). unfold transform. rewrite (circ_square Hc). cbn [negb bind].
    destruct (@exists_last _ ops Hne) as (l & A & E). pose proof (Hev l A E) as HA.
    destruct (@rfft_prep func l A) as (F & EF & HF).
    { change (sizes (l ++ [A])) with (map mrows (l ++ [A])). rewrite <- E. apply circ_pos. exact Hc. }
    { exact HA. }
    { intros kx. rewrite <- E. rewrite (clam_real Hc Hs kx). rewrite Cconj_RtoC, Hf, Cconj_RtoC. reflexivity. }
    rewrite <- E in EF, HF. exists F. eexists. exists (fun f => ffop ops (rlift f)).
    split; [exact EF|]. split; [apply fft_fcalc; auto|]. intros rhs Hr. destruct (HF rhs Hr) as (r & Er & Sr & Vr). exists r.
    split; [exact Er|]. split; [exact Sr|]. intros ix Hix. rewrite (Vr ix Hix). unfold ffop. f_equal.
    destruct (dfts_inv (map mrows ops)) as (HVW & _). apply (@fop_fun _ _ C1 _ _ _ _ _ _ HVW); auto. intros kx _.
    rewrite (clam_real Hc Hs kx). rewrite Hf. reflexivity.
  - contradiction.
Qed.

(* @prop C21 The three implementations agree: for every func that treats a real number like the complex number it is, any two implementations whose requirements are met (matmul, fft, rfft) return the same array for every input. *)
Lemma implementations_agree_lem : forall tpu eigh func ops i1 i2, ops <> [] -> real_on_reals func ->
  usable eigh ops i1 -> usable eigh ops i2 ->
  exists F1 F2, transform tpu eigh func ops true true (Some i1) = Ok F1 /\ transform tpu eigh func ops true true (Some i2) = Ok F2 /\
    forall rhs, shp rhs = sizes ops -> exists r1 r2, F1 rhs = Ok r1 /\ F2 rhs = Ok r2 /\ shp r1 = sizes ops /\ aeq r1 r2.
Proof.
  intros tpu eigh func ops i1 i2 Hne Hf H1 H2.
  destruct (@transform_calc tpu eigh func ops i1 Hne H1 Hf) as (F1 & sp1 & G1 & E1 & K1 & V1).
  destruct (@transform_calc tpu eigh func ops i2 Hne H2 Hf) as (F2 & sp2 & G2 & E2 & K2 & V2).
  exists F1, F2. split; [exact E1|]. split; [exact E2|]. intros rhs Hr.
  destruct (V1 rhs Hr) as (r1 & A1 & S1 & B1). destruct (V2 rhs Hr) as (r2 & A2 & S2 & B2). exists r1, r2.
  repeat split; auto; [congruence|]. rewrite S1. intros ix Hix. rewrite (B1 ix Hix), (B2 ix Hix). apply (@fcalc_unique ops sp1 sp2 G1 G2); auto.
Qed.

Lemma fcalc_eig ops sp FF f w x ix : fcalc ops sp FF -> (forall jx, inb (sizes ops) jx -> separable ops w jx = (x * w jx)%R) -> inb (sizes ops) ix ->
  FF f w ix = (f x * w ix)%R.
Proof.
  intros K Hw Hi. destruct (fc_fin K) as (l & Hl). destruct (interpolate f (x :: l)) as (p & Hp & Ep).
  rewrite (@fc_fun _ _ _ K f p w ix) by first [exact Hi | intros y Hy; rewrite Ep; [reflexivity | right; auto]].
  rewrite <- (Ep x) by (left; reflexivity). clear Ep. revert ix Hi.
  induction Hp as [|g Hg IH|c g Hg IH|g h Hg IHg Hh IHh]; intros ix Hi.
  - rewrite (fc_one K) by exact Hi. ring.
  - rewrite <- (fc_sep K) by exact Hi. rewrite (@separable_ext ops _ (fun jx => g x * w jx)%R) by auto.
    pose proof (inb_length _ _ Hi) as HL. unfold sizes in HL. rewrite map_length in HL. rewrite separable_sep by exact HL.
    unfold sep_op. rewrite (opsum_scal RTheory). fold (sep_op ops w ix). rewrite <- separable_sep by exact HL. rewrite Hw by exact Hi. ring.
  - rewrite (fc_scal K) by exact Hi. rewrite IH by exact Hi. ring.
  - rewrite (fc_plus K) by exact Hi. rewrite IHg, IHh by exact Hi. ring.
Qed.
(* @prop C21 Whatever the implementation, transform(func, operators) multiplies every eigenvector of the summed operator by func(eigenvalue). *)
Lemma transform_eigenvector_lem : forall tpu eigh func ops i w x, ops <> [] -> real_on_reals func -> usable eigh ops i ->
  shp w = sizes ops -> (forall ix, inb (sizes ops) ix -> separable ops (get w) ix = (x * get w ix)%R) ->
  exists F r, transform tpu eigh func ops true true (Some i) = Ok F /\ F w = Ok r /\ shp r = sizes ops /\
    forall ix, inb (sizes ops) ix -> get r ix = (onR func x * get w ix)%R.
Proof.
  intros tpu eigh func ops i w x Hne Hf Hu Sw Hw.
  destruct (@transform_calc tpu eigh func ops i Hne Hu Hf) as (F & sp & G & E & K & V).
  destruct (V w Sw) as (r & A & S1 & B). exists F, r. repeat split; auto. intros ix Hix. rewrite (B ix Hix). apply (@fcalc_eig ops sp G); auto.
Qed.

(** Inner product facts. *)
Lemma inner_self ops w : inner (sizes ops) w w = 0%R -> forall ix, inb (sizes ops) ix -> w ix = 0%R.
Proof.
  unfold inner. intros H ix Hi.
  assert (E : (w ix * w ix = 0)%R) by (apply (@asum_nonneg_0 (sizes ops) (fun jx => w jx * w jx)%R); auto; intros jx _; apply Rle_0_sqr).
  nra.
Qed.
Lemma sep_adjoint ops : Forall symmetric ops -> forall u w, inner (sizes ops) (sep_op ops u) w = inner (sizes ops) u (sep_op ops w).
Proof.
  unfold inner, sep_op, sizes. induction 1 as [|A ops (n & SA & HA) HF IH]; intros u w; cbn [map asum opsum]; [ring|].
  replace (nth 0 (shp A) 0%nat) with n by (rewrite SA; reflexivity). replace (mrows A) with n by (unfold mrows; rewrite SA; reflexivity).
  change (gsum 0%R Rplus) with rsum.
  transitivity (rsum n (fun i => asum (map mrows ops) (fun ix => rsum n (fun j => mfun A i j * u (j :: ix)) * w (i :: ix)) + asum (map mrows ops) (fun ix => Ropsum (map mrows ops) (map mfun ops) (fun jx => u (i :: jx)) ix * w (i :: ix)))%R).
  { apply rsum_ext. intros i _. rewrite <- asum_plus. apply asum_ext. intros ix _. ring. }
  transitivity (rsum n (fun i => asum (map mrows ops) (fun ix => u (i :: ix) * rsum n (fun j => mfun A i j * w (j :: ix))) + asum (map mrows ops) (fun ix => u (i :: ix) * Ropsum (map mrows ops) (map mfun ops) (fun jx => w (i :: jx)) ix))%R).
  2:{ apply rsum_ext. intros i _. rewrite <- asum_plus. apply asum_ext. intros ix _. change (map (fun M => nth 0 (shp M) 0%nat) ops) with (map mrows ops). ring. }
  rewrite !rsum_plus. f_equal.
  - rewrite (@rsum_ext n _ (fun i => rsum n (fun j => asum (map mrows ops) (fun ix => mfun A i j * u (j :: ix) * w (i :: ix)))%R)).
    2:{ intros i _. rewrite <- (@asum_rsum (map mrows ops) n (fun j ix => mfun A i j * u (j :: ix) * w (i :: ix))%R). apply asum_ext. intros ix _. rewrite <- rsum_scal_r. reflexivity. }
    rewrite rsum_swap. apply rsum_ext. intros j Hj.
    rewrite <- (@asum_rsum (map mrows ops) n (fun i ix => mfun A i j * u (j :: ix) * w (i :: ix))%R). apply asum_ext. intros ix _.
    rewrite <- rsum_scal. apply rsum_ext. intros i Hi. unfold mfun. rewrite (HA i j) by auto. ring.
  - apply rsum_ext. intros i _. apply (IH (fun jx => u (i :: jx)) (fun jx => w (i :: jx))).
Qed.
(** Pseudo-inverse in the calculus. *)
Lemma fcalc_pinv ops sp FF cutoff b : fcalc ops sp FF -> Forall symmetric ops -> (0 <= cutoff)%R ->
  (forall x, eigenvalue_of ops x -> x = 0 \/ cutoff < Rabs x)%R ->
  (forall w, (forall ix, inb (sizes ops) ix -> separable ops w ix = 0%R) -> inner (sizes ops) w b = 0%R) ->
  forall ix, inb (sizes ops) ix -> separable ops (FF (onR (pinv_fun cutoff)) b) ix = b ix.
Proof.
  intros K Hs Hc Hcut Hker.
  set (k0 := fun x : R => if Req_EM_T x 0 then 1%R else 0%R). set (g := onR (pinv_fun cutoff)).
  assert (HP : forall ix, inb (sizes ops) ix -> separable ops (FF g b) ix = (b ix - FF k0 b ix)%R).
  { intros ix Hi. rewrite (fc_sep K) by exact Hi. rewrite (@fc_fun _ _ _ K _ (fun x => 1 + (-1) * k0 x)%R b ix); [| |exact Hi].
    - rewrite (@fc_plus _ _ _ K (fun _ => 1%R) (fun x => -1 * k0 x)%R b ix Hi), (@fc_scal _ _ _ K (-1)%R k0 b ix Hi), (fc_one K) by exact Hi. ring.
    - intros x Hx. unfold g. rewrite pinv_pos; [unfold k0; ring | exact Hc | apply Hcut; apply (fc_eig K); exact Hx]. }
  set (w := FF k0 b) in *.
  assert (Hw : forall ix, inb (sizes ops) ix -> separable ops w ix = 0%R).
  { intros ix Hi. unfold w. rewrite (fc_sep K) by exact Hi. rewrite (@fc_fun _ _ _ K _ (fun x => 0 * 1)%R b ix); [| |exact Hi].
    - rewrite (@fc_scal _ _ _ K 0%R (fun _ => 1%R) b ix Hi). ring.
    - intros x _. unfold k0. destruct (Req_EM_T x 0) as [->|]; ring. }
  assert (Hlen : forall ix, inb (sizes ops) ix -> length ix = length ops) by (intros ix Hi; apply inb_length in Hi; unfold sizes in Hi; rewrite map_length in Hi; exact Hi).
  assert (Hww : inner (sizes ops) w w = 0%R).
  { assert (E1 : inner (sizes ops) (sep_op ops (FF g b)) w = 0%R).
    { rewrite sep_adjoint by exact Hs. unfold inner. rewrite (@asum_ext _ _ (fun _ => 0%R)); [apply asum_0|]. intros ix Hi. rewrite <- separable_sep by auto. rewrite Hw by exact Hi. ring. }
    assert (E2 : inner (sizes ops) (sep_op ops (FF g b)) w = (inner (sizes ops) w b - inner (sizes ops) w w)%R).
    { unfold inner. rewrite <- asum_minus. apply asum_ext. intros ix Hi. rewrite <- separable_sep by auto. rewrite HP by exact Hi. ring. }
    rewrite (Hker w Hw) in E2. lra. }
  intros ix Hi. rewrite HP by exact Hi. rewrite (inner_self ops _ Hww) by exact Hi. ring.
Qed.
Lemma pinv_real cutoff : (0 <= cutoff)%R -> real_on_reals (pinv_fun cutoff).
Proof.
  intros Hc x. cbn [onC onR pinv_fun].
  assert (E : Cabs (RtoC x) = Rabs x). { unfold Cabs, Cn2. cbn. replace (x * x + 0 * 0)%R with (Rsqr x) by (unfold Rsqr; ring). apply sqrt_Rsqr_abs. }
  rewrite E. destruct (Rlt_dec cutoff (Rabs x)) as [H|H]; [|reflexivity].
  assert (x <> 0)%R by (intros ->; rewrite Rabs_R0 in H; lra).
  unfold Cdiv, Cinv, Cn2. apply Ceq; cbn; field; auto.
Qed.
Lemma usable_symmetric eigh ops i : usable eigh ops i -> Forall symmetric ops.
Proof.
  destruct i; cbn [usable].
  - apply Forall_impl. intros A (n & SA & SL & SV & H1 & H2 & H3). exists n. split; [exact SA|].
    (* A = V L V^T *)
    assert (G : forall i j, 0 <= i < Z.of_nat n -> 0 <= j < Z.of_nat n -> get A [i; j] = rsum n (fun k => get (snd (eigh A)) [i; k] * get (fst (eigh A)) [k] * get (snd (eigh A)) [j; k])%R).
    { intros i j Hi Hj.
      transitivity (rsum n (fun m => get A [i; m] * (if j =? m then 1 else 0))%R).
      { rewrite (@rsum_ext n (fun m => get A [i; m] * _)%R (fun m => (if j =? m then 1 else 0) * get A [i; m])%R) by (intros; ring).
        symmetry. exact (@gsum_delta R 0%R 1%R Rplus Rmult Rminus Ropp RTheory n j (fun m => get A [i; m]) Hj). }
      transitivity (rsum n (fun m => rsum n (fun k => get A [i; m] * get (snd (eigh A)) [m; k] * get (snd (eigh A)) [j; k]))%R).
      { apply rsum_ext. intros m Hm. rewrite <- (H3 j m Hj Hm). rewrite <- rsum_scal. apply rsum_ext. intros; ring. }
      rewrite rsum_swap. apply rsum_ext. intros k Hk. rewrite rsum_scal_r. rewrite H1 by auto. reflexivity. }
    intros i j Hi Hj. rewrite !G by auto. apply rsum_ext. intros; ring.
  - tauto.
  - tauto.
  - tauto.
Qed.
(* @prop C21 pseudoinverse solves the system with every implementation (matmul, fft, rfft): if every eigenvalue of the summed operator is zero or larger in absolute value than the cutoff, then for every right-hand side b orthogonal to its kernel, x = pinv(b) satisfies A x = b. *)
Lemma pseudoinverse_solves_every_implementation_lem : forall tpu eigh ops i cutoff, ops <> [] -> (0 <= cutoff)%R -> usable eigh ops i ->
  (forall x, eigenvalue_of ops x -> x = 0 \/ cutoff < Rabs x)%R ->
  exists F, pseudoinverse tpu eigh ops true true (Some i) cutoff = Ok F /\
    forall b, shp b = sizes ops ->
      (forall w, (forall ix, inb (sizes ops) ix -> separable ops w ix = 0%R) -> inner (sizes ops) w (get b) = 0%R) ->
      exists x, F b = Ok x /\ shp x = sizes ops /\ forall ix, inb (sizes ops) ix -> separable ops (get x) ix = get b ix.
Proof.
  intros tpu eigh ops i cutoff Hne Hc Hu Hcut.
  destruct (@transform_calc tpu eigh (pinv_fun cutoff) ops i Hne Hu (pinv_real Hc)) as (F & sp & G & E & K & V).
  exists F. split; [exact E|]. intros b Sb Hker. destruct (V b Sb) as (x & Ex & Sx & Vx). exists x. split; [exact Ex|]. split; [exact Sx|].
  intros ix Hi. rewrite (@separable_ext ops _ _ ix Vx Hi). apply (@fcalc_pinv ops sp G cutoff (get b)); auto. apply (usable_symmetric _ _ _ Hu).
Qed.

(* @prop C21 The default implementation outside TPUs is rfft when the last axis has even length and matmul otherwise; on TPUs matmul up to 1024 cells per axis, else the same choice. *)
Lemma default_implementation_lem : forall eigh func l A herm circ, 
  let ops := l ++ [A] in
  let even := negb (Nat.odd (nth 0 (shp A) 0%nat)) in
  forallb square ops = true ->
  transform false eigh func ops herm circ None = transform false eigh func ops herm circ (Some (if even then Rfft else Matmul)) /\
  ((forall B, In B ops -> (Z.of_nat (nth 0 (shp B) 0%nat) <= 1024)) ->
     transform true eigh func ops herm circ None = transform true eigh func ops herm circ (Some Matmul)) /\
  ((exists B, In B ops /\ (1024 < Z.of_nat (nth 0 (shp B) 0%nat))) ->
     transform true eigh func ops herm circ None = transform true eigh func ops herm circ (Some (if even then Rfft else Matmul))).
Proof.
  intros eigh func l A herm circ ops even Hsq.
  assert (Hmax : forall xs a, (Z.of_nat (fold_left Nat.max xs a) <= 1024) <-> (Z.of_nat a <= 1024 /\ forall x, In x xs -> Z.of_nat x <= 1024)).
  { induction xs as [|x xs IH]; intros a; cbn [fold_left In]; [intuition|]. rewrite IH. split.
    - intros (H1 & H2). split; [lia|]. intros y [<- | Hy]; [lia | auto].
    - intros (H1 & H2). split; [|intros y Hy; auto]. pose proof (H2 x (or_introl eq_refl)). lia. }
  assert (Hlast : match rev ops with [] => Err EIndex | op :: _ => Ok (if Nat.odd (mrows op) then Matmul else Rfft) end = Ok (if even then Rfft else Matmul)).
  { unfold ops. rewrite rev_app_distr. cbn [rev app]. unfold even, mrows. destruct (Nat.odd (nth 0 (shp A) 0%nat)); reflexivity. }
  unfold transform. rewrite Hsq. cbn [negb]. unfold default_impl. split; [|split].
  - cbn [bind]. rewrite Hlast. reflexivity.
  - intros HB. assert (Hno : (1024 <? Z.of_nat (fold_left Nat.max (map mrows ops) 0%nat)) = false).
    { apply Z.ltb_ge. apply Hmax. split; [lia|]. intros x Hx. apply in_map_iff in Hx. destruct Hx as (B & <- & HinB). apply HB. exact HinB. }
    destruct ops as [|o os] eqn:Eo; [unfold ops in Eo; destruct l; discriminate|]. rewrite <- Eo in *. rewrite Hno. reflexivity.
  - intros (B & HinB & HBig). assert (Hyes : (1024 <? Z.of_nat (fold_left Nat.max (map mrows ops) 0%nat)) = true).
    { apply Z.ltb_lt. destruct (Z.lt_ge_cases 1024 (Z.of_nat (fold_left Nat.max (map mrows ops) 0%nat))) as [H|H]; [exact H|].
      apply Hmax in H. destruct H as (_ & H). specialize (H (mrows B) (in_map mrows _ _ HinB)). unfold mrows in H. lia. }
    destruct ops as [|o os] eqn:Eo; [unfold ops in Eo; destruct l; discriminate|]. rewrite <- Eo in *. rewrite Hyes. cbn [bind]. rewrite Hlast. reflexivity.
Qed.

(* @prop C21 The rfft implementation returns the same array as the fft one for every func that commutes with complex conjugation, for any square operators (circulant or not) with an even last axis. *)
Lemma rfft_equals_fft_lem : forall tpu eigh func ops herm, ops <> [] -> forallb square ops = true -> allpos (sizes ops) ->
  (forall l A, ops = l ++ [A] -> Nat.odd (nth 0 (shp A) 0%nat) = false) ->
  (forall z, onC func (Cconj z) = Cconj (onC func z)) ->
  exists F1 F2, transform tpu eigh func ops herm true (Some Fft) = Ok F1 /\ transform tpu eigh func ops herm true (Some Rfft) = Ok F2 /\
    forall rhs, shp rhs = sizes ops -> exists r1 r2, F1 rhs = Ok r1 /\ F2 rhs = Ok r2 /\ shp r1 = sizes ops /\ aeq r1 r2.
Proof.
  intros tpu eigh func ops herm Hne Hsq Hp Hev Hc. unfold transform. rewrite Hsq. cbn [negb bind].
  destruct (@exists_last _ ops Hne) as (l & A & E).
  destruct (@fft_prep func ops Hne) as (F1 & E1 & _ & V1). rewrite E in Hp.
  destruct (@rfft_prep func l A Hp (Hev l A E)) as (F2 & E2 & V2); [intros; apply Hc|]. rewrite <- E in E2, V2.
  exists F1, F2. split; [exact E1|]. split; [exact E2|]. intros rhs Hr. destruct (V1 rhs Hr) as (r1 & A1 & S1 & B1). destruct (V2 rhs Hr) as (r2 & A2 & S2 & B2).
  exists r1, r2. repeat split; auto; [congruence|]. rewrite S1. intros ix Hix. rewrite (B1 ix Hix), (B2 ix Hix). reflexivity.
Qed.

(** Examples: A = [[-1, 1], [1, -1]] on both axes is symmetric, circulant, of even size. *)
Lemma fdA_circ : circulant fdA.
Proof.
  exists 2%nat. split; [lia|]. split; [reflexivity|]. intros i j Hi Hj. assert (Ei : i = 0 \/ i = 1) by lia. assert (Ej : j = 0 \/ j = 1) by lia.
  destruct Ei as [-> | ->]; destruct Ej as [-> | ->]; reflexivity.
Qed.
Lemma fdA_sym : symmetric fdA.
Proof.
  exists 2%nat. split; [reflexivity|]. intros i j Hi Hj. cbn. rewrite Z.eqb_sym. reflexivity.
Qed.
Lemma fdA_usable i : i <> OtherImpl -> usable fdE [fdA; fdA] i.
Proof.
  assert (H1 : Forall circulant [fdA; fdA]) by (constructor; [exact fdA_circ|]; constructor; [exact fdA_circ | constructor]).
  assert (H2 : Forall symmetric [fdA; fdA]) by (constructor; [exact fdA_sym|]; constructor; [exact fdA_sym | constructor]).
  intros Hi. destruct i; cbn [usable]; [exact fdE_all | auto | | congruence].
  split; [exact H1|]. split; [exact H2|]. intros l A E. change [fdA; fdA] with ([fdA] ++ [fdA]) in E. apply app_inj_tail in E. destruct E as (_ & <-). reflexivity.
Qed.
(* @ex *)
Lemma implementations_agree_ex_lem : [fdA; fdA] <> [] /\ real_on_reals (pinv_fun 1) /\ usable fdE [fdA; fdA] Matmul /\ usable fdE [fdA; fdA] Fft /\ usable fdE [fdA; fdA] Rfft.
Proof. split; [discriminate|]. split; [apply pinv_real; lra|]. split; [apply fdA_usable; discriminate|]. split; apply fdA_usable; discriminate. Qed.
(* @ex *)
Lemma transform_eigenvector_ex_lem : exists w : arr R, usable fdE [fdA; fdA] Rfft /\ shp w = sizes [fdA; fdA] /\ get w [0; 0] <> 0%R /\
  forall ix, inb (sizes [fdA; fdA]) ix -> separable [fdA; fdA] (get w) ix = ((-2) * get w ix)%R.
Proof.
  exists (mkarr [2%nat; 2%nat] (fun ix => if nth 0 ix 0 =? 0 then 1%R else (-1)%R)). split; [apply fdA_usable; discriminate|]. split; [reflexivity|]. split; [cbn; lra|].
  intros ix Hi. destruct ix as [|i [|j [|k ix]]]; cbn in Hi; try tauto. assert (Ei : i = 0 \/ i = 1) by lia. assert (Ej : j = 0 \/ j = 1) by lia.
  destruct Ei as [-> | ->]; destruct Ej as [-> | ->]; cbn; lra.
Qed.
(* @ex *)
Lemma pseudoinverse_solves_every_implementation_ex_lem : usable fdE [fdA; fdA] Rfft /\ (forall x, eigenvalue_of [fdA; fdA] x -> x = 0 \/ 1 < Rabs x)%R.
Proof.
  split; [apply fdA_usable; discriminate|]. intros x (w & (ix & Hix & Hn) & Hw).
  pose proof (Hw [0; 0] ltac:(cbn; lia)) as H1. pose proof (Hw [0; 1] ltac:(cbn; lia)) as H2. pose proof (Hw [1; 0] ltac:(cbn; lia)) as H3. pose proof (Hw [1; 1] ltac:(cbn; lia)) as H4.
  cbn in H1, H2, H3, H4.
  set (a := w [0; 0]) in *. set (b := w [0; 1]) in *. set (c := w [1; 0]) in *. set (d := w [1; 1]) in *.
  (* sums along the characters diagonalise the system *)
  assert (E1 : (x * (a + b + c + d) = 0)%R) by lra.
  assert (E2 : ((x + 2) * (a + b - c - d) = 0)%R) by lra.
  assert (E3 : ((x + 2) * (a - b + c - d) = 0)%R) by lra.
  assert (E4 : ((x + 4) * (a - b - c + d) = 0)%R) by lra.
  destruct (Req_EM_T x 0) as [->|N0]; [left; reflexivity|]. right.
  destruct (Req_EM_T x (-2)) as [->|N2]; [rewrite Rabs_left; lra|]. destruct (Req_EM_T x (-4)) as [->|N4]; [rewrite Rabs_left; lra|]. exfalso.
  apply Rmult_integral in E1. apply Rmult_integral in E2. apply Rmult_integral in E3. apply Rmult_integral in E4.
  assert (F1 : (a + b + c + d = 0)%R) by (destruct E1; [contradiction | assumption]).
  assert (F2 : (a + b - c - d = 0)%R) by (destruct E2; [exfalso; apply N2; lra | assumption]).
  assert (F3 : (a - b + c - d = 0)%R) by (destruct E3; [exfalso; apply N2; lra | assumption]).
  assert (F4 : (a - b - c + d = 0)%R) by (destruct E4; [exfalso; apply N4; lra | assumption]).
  apply Hn. destruct ix as [|i [|j [|k ix]]]; cbn in Hix; try tauto. assert (Ei : i = 0 \/ i = 1) by lia. assert (Ej : j = 0 \/ j = 1) by lia.
  destruct Ei as [-> | ->]; destruct Ej as [-> | ->]; unfold a, b, c, d in *; lra.
Qed.
(* @ex *)
Lemma default_implementation_ex_lem : forallb square ([fdA] ++ [fdA]) = true /\ (forall B, In B ([fdA] ++ [fdA]) -> (Z.of_nat (nth 0 (shp B) 0%nat) <= 1024)).
Proof. split; [reflexivity|]. intros B [<- | [<- | []]]; cbn; lia. Qed.
(* @ex *)
Lemma rfft_equals_fft_ex_lem : forallb square [fdA; fdA] = true /\ allpos (sizes [fdA; fdA]) /\ (forall z, onC (mkufun (fun x => x * x)%R (fun z => Cmul z z)) (Cconj z) = Cconj (onC (mkufun (fun x => x * x)%R (fun z => Cmul z z)) z)).
Proof. split; [reflexivity|]. split; [repeat constructor|]. intros z. cbn [onC]. rewrite Cconj_mul. reflexivity. Qed.
