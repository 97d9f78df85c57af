(** * C21: fast diagonalisation, matmul implementation *)
From Verif Require Import Prelude NdArr Grids_model Spec SpecLin LinAlg Cplx FastDiag_model FDProofs FastDiagProofs.
Set Implicit Arguments.
Local Open Scope Z_scope.

Section Formula.
Variables (eigh : arr R -> arr R * arr R).
Lemma kron_V ops : forall w ix, length ix = length ops ->
  Rkron (map mrows ops) (map (fun A => mfun (snd (eigh A))) ops) w ix =
  asum (map mrows ops) (fun kx => joint_vector (map eigh ops) kx ix * w kx)%R.
Proof.
  induction ops as [|A ops IH]; intros w [|i ix] H; simpl in H; try lia; cbn [map kron asum joint_vector]; [ring|].
  change (gsum 0%R Rplus) with rsum. apply rsum_ext. intros k _. rewrite IH by lia. rewrite <- asum_scal. apply asum_ext. intros kx _. unfold mfun. ring.
Qed.
Lemma kron_W ops : forall w kx, length kx = length ops ->
  Rkron (map mrows ops) (map (fun A => fun i j => mfun (snd (eigh A)) j i) ops) w kx =
  asum (map mrows ops) (fun ix => joint_vector (map eigh ops) kx ix * w ix)%R.
Proof.
  induction ops as [|A ops IH]; intros w [|k kx] H; simpl in H; try lia; cbn [map kron asum joint_vector]; [ring|].
  change (gsum 0%R Rplus) with rsum. apply rsum_ext. intros i _. rewrite IH by lia. rewrite <- asum_scal. apply asum_ext. intros ix _. unfold mfun. ring.
Qed.
Lemma fdop_formula ops f u ix : inb (map mrows ops) ix ->
  fdop eigh ops f u ix = asum (map mrows ops) (fun kx => f (joint_value (map eigh ops) kx) * joint_vector (map eigh ops) kx ix *
     inner (map mrows ops) (joint_vector (map eigh ops) kx) u)%R.
Proof.
  intros Hix. pose proof (inb_length _ _ Hix) as HL. rewrite map_length in HL. unfold fdop, fop. rewrite kron_V by exact HL.
  apply asum_ext. intros kx Hkx. pose proof (inb_length _ _ Hkx) as HLk. rewrite map_length in HLk.
  rewrite kron_W by exact HLk. fold (joint_eig eigh ops kx). rewrite <- joint_value_lam. unfold inner. ring.
Qed.
Lemma joint_eigenvector ops : Forall (fun A => eigen_decomposition A (eigh A)) ops -> forall kx ix, inb (map mrows ops) kx -> inb (map mrows ops) ix ->
  sep_op ops (joint_vector (map eigh ops) kx) ix = (joint_value (map eigh ops) kx * joint_vector (map eigh ops) kx ix)%R.
Proof.
  unfold sep_op. induction 1 as [|A ops HA HF IH]; intros [|k kx] [|i ix] Hk Hi; simpl in Hk, Hi; try tauto; cbn [map opsum joint_vector joint_value]; [ring|].
  destruct HA as (n & SA & SL & SV & H1 & _). unfold mrows in Hk, Hi at 1. rewrite SA in Hk, Hi. cbn [nth] in Hk, Hi.
  unfold mrows at 1. rewrite SA. cbn [nth]. change (gsum 0%R Rplus) with rsum.
  rewrite (@rsum_ext n _ (fun j => (get A [i; j] * get (snd (eigh A)) [j; k]) * joint_vector (map eigh ops) kx ix)%R) by (intros; unfold mfun; ring).
  rewrite rsum_scal_r, H1 by tauto.
  change (fun jx => (get (snd (eigh A)) [i; k] * joint_vector (map eigh ops) kx jx)%R) with (fun jx => Rmult (get (snd (eigh A)) [i; k]) (joint_vector (map eigh ops) kx jx)).
  rewrite (opsum_scal RTheory). rewrite IH by tauto. ring.
Qed.
End Formula.

Lemma sizes_mrows ops : sizes ops = map mrows ops. Proof. reflexivity. Qed.

(* @prop C21 With orthonormal eigendecompositions of the operators, transform(func, operators) with the matmul implementation maps every array to the sum over the joint eigenvectors of func(sum of the eigenvalues) times the component along that eigenvector; it rejects arrays of another shape. *)
Lemma fast_diag_matmul_spec_lem : forall tpu eigh func ops circ, ops <> [] -> Forall (fun A => eigen_decomposition A (eigh A)) ops ->
  exists F, transform tpu eigh func ops true circ (Some Matmul) = Ok F /\
    (forall rhs, shp rhs <> sizes ops -> F rhs = Err EValue) /\
    forall rhs, shp rhs = sizes ops -> exists r, F rhs = Ok r /\ shp r = sizes ops /\
      forall ix, inb (sizes ops) ix ->
        get r ix = asum (sizes ops) (fun kx => onR func (joint_value (map eigh ops) kx) * joint_vector (map eigh ops) kx ix *
                                              inner (sizes ops) (joint_vector (map eigh ops) kx) (get rhs))%R.
Proof.
  intros tpu eigh func ops circ Hne Hok. unfold transform. rewrite (@mat_square eigh ops Hok). cbn [negb bind].
  destruct (matmul_prep eigh Hne Hok func) as (F & EF & HF1 & HF2). exists F. split; [exact EF|]. split; [exact HF1|].
  intros rhs Hr. destruct (HF2 rhs Hr) as (r & Er & Sr & Vr). exists r. split; [exact Er|]. split; [exact Sr|]. intros ix Hix. rewrite (Vr ix Hix). apply fdop_formula. exact Hix.
Qed.

(* @prop C21 The joint eigenvectors are eigenvectors of the sum of the operators applied along their axes, with the summed eigenvalue, so that func acts on its spectrum. *)
Lemma fast_diag_joint_eigenvectors_lem : forall eigh ops, Forall (fun A => eigen_decomposition A (eigh A)) ops ->
  forall kx ix, inb (sizes ops) kx -> inb (sizes ops) ix ->
    separable ops (joint_vector (map eigh ops) kx) ix = (joint_value (map eigh ops) kx * joint_vector (map eigh ops) kx ix)%R.
Proof.
  intros eigh ops Hok kx ix Hk Hi. pose proof (inb_length _ _ Hi) as HL. unfold sizes in HL. rewrite map_length in HL. rewrite separable_sep by exact HL. apply joint_eigenvector; auto.
Qed.

Lemma pinv_pos cutoff x : (0 <= cutoff)%R -> (x = 0 \/ cutoff < Rabs x)%R ->
  (x * onR (pinv_fun cutoff) x = 1 - (if Req_EM_T x 0 then 1 else 0))%R.
Proof.
  intros Hc [->|Hx]; cbn [onR pinv_fun].
  - destruct (Req_EM_T 0 0); [ring | congruence].
  - assert (x <> 0)%R by (intros ->; rewrite Rabs_R0 in Hx; lra). destruct (Req_EM_T x 0); [contradiction|]. destruct (Rlt_dec cutoff (Rabs x)); [field; auto | contradiction].
Qed.

(** Core: the operator applied to the pseudo-inverse. *)
Lemma pinv_core eigh ops cutoff b : (0 <= cutoff)%R -> Forall (fun A => eigen_decomposition A (eigh A)) ops ->
  (forall kx, inb (sizes ops) kx -> joint_value (map eigh ops) kx = 0 \/ cutoff < Rabs (joint_value (map eigh ops) kx))%R ->
  (forall w, (forall ix, inb (sizes ops) ix -> separable ops w ix = 0%R) -> inner (sizes ops) w b = 0%R) ->
  forall ix, inb (sizes ops) ix -> sep_op ops (fdop eigh ops (onR (pinv_fun cutoff)) b) ix = b ix.
Proof.
  intros Hc Hok Hcut Hker ix Hix. rewrite (sep_fdop eigh Hok) by auto.
  rewrite (@fdop_fun eigh ops Hok _ (fun x => 1 + (-1) * (if Req_EM_T x 0 then 1 else 0))%R b ix); auto.
  2:{ intros kx Hkx. rewrite <- joint_value_lam. rewrite pinv_pos; [ring | auto | apply Hcut; auto]. }
  rewrite (fdop_plus eigh Hok (fun _ => 1%R) (fun x => -1 * (if Req_EM_T x 0 then 1 else 0))%R) by auto. rewrite (fdop_one eigh Hok) by auto.
  rewrite (fdop_scal eigh Hok (-1)%R (fun x => if Req_EM_T x 0 then 1 else 0)%R) by auto.
  rewrite fdop_formula by auto. rewrite (@asum_ext _ _ (fun _ => 0%R)); [rewrite asum_0; ring|].
  intros kx Hkx. destruct (Req_EM_T (joint_value (map eigh ops) kx) 0) as [E|E]; [|ring].
  rewrite <- (sizes_mrows ops). rewrite Hker; [ring|]. intros jx Hjx. rewrite fast_diag_joint_eigenvectors_lem by auto. rewrite E. ring.
Qed.

(* @prop C21 pseudoinverse solves the system: if every summed eigenvalue is zero or larger in absolute value than the cutoff, then for every right-hand side b orthogonal to the kernel of the summed operator, x = pinv(b) satisfies A x = b. *)
Lemma pseudoinverse_solves_lem : forall tpu eigh ops circ cutoff, ops <> [] -> (0 <= cutoff)%R -> Forall (fun A => eigen_decomposition A (eigh A)) ops ->
  (forall kx, inb (sizes ops) kx -> joint_value (map eigh ops) kx = 0 \/ cutoff < Rabs (joint_value (map eigh ops) kx))%R ->
  exists F, pseudoinverse tpu eigh ops true circ (Some Matmul) cutoff = Ok F /\
    forall b, shp b = sizes ops ->
      (forall w, (forall ix, inb (sizes ops) ix -> separable ops w ix = 0%R) -> inner (sizes ops) w (get b) = 0%R) ->
      exists x, F b = Ok x /\ shp x = sizes ops /\ forall ix, inb (sizes ops) ix -> separable ops (get x) ix = get b ix.
Proof.
  intros tpu eigh ops circ cutoff Hne Hc Hok Hcut. unfold pseudoinverse, transform. rewrite (@mat_square eigh ops Hok). cbn [negb bind].
  destruct (matmul_prep eigh Hne Hok (pinv_fun cutoff)) as (F & EF & _ & HF2). exists F. split; [exact EF|].
  intros b Hb Hker. destruct (HF2 b Hb) as (x & Ex & Sx & Vx). exists x. split; [exact Ex|]. split; [exact Sx|]. intros ix Hix.
  pose proof (inb_length _ _ Hix) as HL. unfold sizes in HL. rewrite map_length in HL.
  rewrite separable_sep by exact HL. rewrite (sep_ext ops _ (fdop eigh ops (onR (pinv_fun cutoff)) (get b))) by auto. apply pinv_core; auto.
Qed.

(* @prop C21 pseudoinverse is a pseudo-inverse whatever the cutoff: P A P = P, as operators on arrays. *)
Lemma pseudoinverse_pap_lem : forall tpu eigh ops circ cutoff F b x y, ops <> [] -> (0 <= cutoff)%R -> Forall (fun A => eigen_decomposition A (eigh A)) ops ->
  pseudoinverse tpu eigh ops true circ (Some Matmul) cutoff = Ok F ->
  shp b = sizes ops -> F b = Ok x ->
  F (mkarr (sizes ops) (separable ops (get x))) = Ok y -> aeq y x.
Proof.
  intros tpu eigh ops circ cutoff F b x y Hne Hc Hok EF Hb Ex Ey. unfold pseudoinverse, transform in EF. rewrite (@mat_square eigh ops Hok) in EF. cbn [negb bind] in EF.
  destruct (matmul_prep eigh Hne Hok (pinv_fun cutoff)) as (F' & EF' & _ & HF2). rewrite EF in EF'. injection EF' as <-.
  destruct (HF2 b Hb) as (x' & Ex' & Sx & Vx). rewrite Ex in Ex'. injection Ex' as <-.
  destruct (HF2 (mkarr (sizes ops) (separable ops (get x))) eq_refl) as (y' & Ey' & Sy & Vy). rewrite Ey in Ey'. injection Ey' as <-.
  split; [congruence|]. rewrite Sy. intros ix Hix. rewrite (Vx ix Hix), (Vy ix Hix). cbn [get].
  set (pf := onR (pinv_fun cutoff)).
  rewrite (@fdop_ext eigh ops Hok pf (separable ops (get x)) (fdop eigh ops (fun z => z * pf z)%R (get b)) ix); auto.
  - rewrite (fdop_comp eigh Hok) by auto. apply (fdop_fun eigh Hok); auto. intros kx _. set (z := joint_eig eigh ops kx). unfold pf. cbn [onR pinv_fun].
    destruct (Rlt_dec cutoff (Rabs z)) as [Hz|Hz]; [|ring]. assert (z <> 0)%R by (intros E; rewrite E, Rabs_R0 in Hz; lra). field. auto.
  - intros jx Hjx. pose proof (inb_length _ _ Hjx) as HL. rewrite map_length in HL. rewrite separable_sep by exact HL.
    rewrite (sep_ext ops _ (fdop eigh ops pf (get b))) by auto. apply (sep_fdop eigh Hok); auto.
Qed.

(* @prop C21 The dispatch: matmul requires hermitian, fft and rfft require circulant, rfft an even last axis, and unknown implementation names or non-square operators raise ValueError. *)
Lemma fast_diag_dispatch_lem : forall tpu eigh func ops herm circ i,
  (forallb square ops = false -> transform tpu eigh func ops herm circ i = Err EValue) /\
  transform tpu eigh func ops false circ (Some Matmul) = Err EValue /\
  transform tpu eigh func ops herm false (Some Fft) = Err EValue /\
  transform tpu eigh func ops herm false (Some Rfft) = Err EValue /\
  transform tpu eigh func ops herm circ (Some OtherImpl) = Err EValue /\
  (forall l A, ops = l ++ [A] -> Nat.odd (nth 0 (shp A) 0%nat) = true -> transform tpu eigh func ops herm circ (Some Rfft) = Err EValue).
Proof.
  intros. unfold transform. split; [intros ->; reflexivity|].
  destruct (forallb square ops); cbn [negb bind]; repeat split; try reflexivity.
  intros l A -> HA. destruct circ; [cbn [negb] | reflexivity]. unfold circulant_rfft_transform. rewrite rev_app_distr. cbn [rev app]. unfold mrows at 1. rewrite HA. reflexivity.
Qed.

(** Example: A = [[-1, 1], [1, -1]] along both axes of a 2x2 grid. *)
Definition fdA : arr R := mkarr [2%nat; 2%nat] (fun ix => if (nth 0 ix 0 =? nth 1 ix 0)%Z then (-1)%R else 1%R).
Definition fdV : arr R := mkarr [2%nat; 2%nat] (fun ix => if ((nth 0 ix 0 =? 1) && (nth 1 ix 0 =? 1))%Z then (- / sqrt 2)%R else (/ sqrt 2)%R).
Definition fdL : arr R := mkarr [2%nat] (fun ix => if (nth 0 ix 0 =? 0)%Z then 0%R else (-2)%R).
Definition fdE (_ : arr R) : arr R * arr R := (fdL, fdV).
Lemma fdE_ok : eigen_decomposition fdA (fdE fdA).
Proof.
  assert (Hs : (/ sqrt 2 * / sqrt 2 = / 2)%R) by (rewrite <- Rinv_mult; rewrite sqrt_sqrt by lra; reflexivity).
  exists 2%nat. repeat split; intros i k Hi Hk;
  assert (Ei : i = 0 \/ i = 1) by lia; assert (Ek : k = 0 \/ k = 1) by lia;
  destruct Ei as [-> | ->]; destruct Ek as [-> | ->]; cbn; set (t := (/ sqrt 2)%R) in *; lra.
Qed.
Lemma fdE_all : Forall (fun A => eigen_decomposition A (fdE A)) [fdA; fdA].
Proof. constructor; [exact fdE_ok|]. constructor; [exact fdE_ok | constructor]. Qed.
Lemma fdE_cut kx : inb (sizes [fdA; fdA]) kx -> (joint_value (map fdE [fdA; fdA]) kx = 0 \/ 1 < Rabs (joint_value (map fdE [fdA; fdA]) kx))%R.
Proof.
  intros H. destruct kx as [|k0 [|k1 [|k2 kx]]]; cbn in H; try tauto. cbn [map joint_value fdE fst get fdL nth].
  destruct (k0 =? 0); destruct (k1 =? 0).
  - left; ring.
  - right. rewrite Rabs_left; lra.
  - right. rewrite Rabs_left; lra.
  - right. rewrite Rabs_left; lra.
Qed.
(* @ex *)
Lemma fast_diag_matmul_spec_ex_lem : [fdA; fdA] <> [] /\ Forall (fun A => eigen_decomposition A (fdE A)) [fdA; fdA].
Proof. split; [discriminate | exact fdE_all]. Qed.
(* @ex *)
Lemma fast_diag_joint_eigenvectors_ex_lem : Forall (fun A => eigen_decomposition A (fdE A)) [fdA; fdA] /\ inb (sizes [fdA; fdA]) [1; 0] /\ joint_value (map fdE [fdA; fdA]) [1; 0] = (-2)%R.
Proof. split; [exact fdE_all|]. split; [cbn; lia|]. cbn. lra. Qed.
(* @ex *)
Lemma pseudoinverse_solves_ex_lem : Forall (fun A => eigen_decomposition A (fdE A)) [fdA; fdA] /\
  (forall kx, inb (sizes [fdA; fdA]) kx -> joint_value (map fdE [fdA; fdA]) kx = 0 \/ 1 < Rabs (joint_value (map fdE [fdA; fdA]) kx))%R /\
  (forall w, (forall ix, inb (sizes [fdA; fdA]) ix -> separable [fdA; fdA] w ix = 0%R) -> inner (sizes [fdA; fdA]) w (fun ix => IZR (nth 0 ix 0 + nth 1 ix 0 - 1)) = 0%R).
Proof.
  split; [exact fdE_all|]. split; [exact fdE_cut|]. intros w Hw.
  pose proof (Hw [0; 0] ltac:(cbn; lia)) as H1. pose proof (Hw [0; 1] ltac:(cbn; lia)) as H2. pose proof (Hw [1; 0] ltac:(cbn; lia)) as H3. pose proof (Hw [1; 1] ltac:(cbn; lia)) as H4.
  cbn in H1, H2, H3, H4. unfold inner. cbn. lra.
Qed.
(* @ex *)
Lemma pseudoinverse_pap_ex_lem : exists F b x y, pseudoinverse false fdE [fdA; fdA] true false (Some Matmul) 1 = Ok F /\ shp b = sizes [fdA; fdA] /\ F b = Ok x /\ F (mkarr (sizes [fdA; fdA]) (separable [fdA; fdA] (get x))) = Ok y.
Proof.
  destruct (@fast_diag_matmul_spec_lem false fdE (pinv_fun 1) [fdA; fdA] false ltac:(discriminate) fdE_all) as (F & EF & _ & HF).
  exists F, (mkarr [2%nat; 2%nat] (fun ix => IZR (nth 0 ix 0))). destruct (HF (mkarr [2%nat; 2%nat] (fun ix => IZR (nth 0 ix 0))) eq_refl) as (x & Ex & _). exists x.
  destruct (HF (mkarr (sizes [fdA; fdA]) (separable [fdA; fdA] (get x))) eq_refl) as (y & Ey & _). exists y. auto.
Qed.
(* @ex *)
Lemma fast_diag_dispatch_ex_lem : forallb square [fdA; fdL] = false /\ Nat.odd (nth 0 (shp (afull [3%nat; 3%nat] 0%R)) 0%nat) = true.
Proof. split; reflexivity. Qed.
