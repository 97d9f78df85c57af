(** * Property C37 (and the sil3 part of C38): order of accuracy of the implicit-explicit schemes
    on linear problems whose two parts need not commute *)
From Verif Require Import Prelude NdArr Grids_model Spec Boundaries_model FD_model PRep FDProofs TimeStep_model Func_model FuncProps TimeStepProps.
Set Implicit Arguments.
Local Open Scope nat_scope.

(** ** Specification vocabulary *)
Definition seminorm {X} (N : vec X -> R) : Prop :=
  (forall u v, N (vadd u v) <= N u + N v)%R /\ (forall c u, N (vscal c u) = Rabs c * N u)%R.
Definition bounded {X} (N : vec X -> R) (L : vec X -> vec X) : Prop := exists K, (0 <= K)%R /\ forall u, (N (L u) <= K * N u)%R.

(** The local error against the degree-2 Taylor polynomial of exp(dt A) is at most [C |dt|^3 N(u)]. *)
Definition second_order {X} (N : vec X -> R) (A : vec X -> vec X) (step : R -> vec X -> vec X) : Prop :=
  exists C d, (0 < d)%R /\ forall dt u, (Rabs dt <= d)%R -> (N (fun x => step dt u x - taylor A dt 2 u x) <= C * Rabs dt ^ 3 * N u)%R.
Definition first_order {X} (N : vec X -> R) (A : vec X -> vec X) (step : R -> vec X -> vec X) : Prop :=
  exists C d, (0 < d)%R /\ forall dt u, (Rabs dt <= d)%R -> (N (fun x => step dt u x - taylor A dt 1 u x) <= C * Rabs dt ^ 2 * N u)%R.

(** ** Second-order expansions *)
Section Jets.
  Context {X : Type} (N : vec X -> R).
  Hypothesis HN : seminorm N.
  Let Nadd := proj1 HN.
  Let Nscal := proj2 HN.

  Lemma N0 : N vzero = 0%R.
  Proof using HN. replace (@vzero X) with (vscal 0 (@vzero X)) by (apply vec_ext; intros; unfold vscal, vzero; ring). rewrite Nscal, Rabs_R0. ring. Qed.
  Lemma Npos u : (0 <= N u)%R.
  Proof using HN.
    assert (H : (N vzero <= N u + N (vscal (-1) u))%R).
    { replace (@vzero X) with (vadd u (vscal (-1) u)) by (apply vec_ext; intros; unfold vadd, vscal, vzero; ring). apply Nadd. }
    rewrite N0, Nscal in H. rewrite (Rabs_left (-1)) in H by lra. lra.
  Qed.

  Lemma bounded_id : bounded N (fun u => u).
  Proof using HN. exists 1%R. split; [lra|]. intros; lra. Qed.
  Lemma bounded_zero : bounded N (fun _ => vzero).
  Proof using HN. exists 0%R. split; [lra|]. intros; rewrite N0; lra. Qed.
  Lemma bounded_add L M : bounded N L -> bounded N M -> bounded N (fun u => vadd (L u) (M u)).
  Proof using HN.
    intros [K [HK H1]] [K' [HK' H2]]. exists (K + K')%R. split; [lra|]. intros u.
    eapply Rle_trans; [apply Nadd|]. specialize (H1 u). specialize (H2 u). lra.
  Qed.
  Lemma bounded_scal c L : bounded N L -> bounded N (fun u => vscal c (L u)).
  Proof using HN.
    intros [K [HK H1]]. exists (Rabs c * K)%R. split; [apply Rmult_le_pos; auto; apply Rabs_pos|]. intros u.
    rewrite Nscal, Rmult_assoc. apply Rmult_le_compat_l; [apply Rabs_pos | auto].
  Qed.
  Lemma bounded_comp L M : bounded N L -> bounded N M -> bounded N (fun u => L (M u)).
  Proof using HN.
    intros [K [HK H1]] [K' [HK' H2]]. exists (K * K')%R. split; [apply Rmult_le_pos; auto|]. intros u.
    eapply Rle_trans; [apply H1|]. rewrite Rmult_assoc. apply Rmult_le_compat_l; auto.
  Qed.

  Definition poly (v0 v1 v2 : vec X -> vec X) (t : R) (u : vec X) : vec X :=
    vadd (vadd (v0 u) (vscal t (v1 u))) (vscal (t ^ 2) (v2 u)).
  Definition vsub (u v : vec X) : vec X := fun x => (u x - v x)%R.
  Definition pjet (phi : R -> vec X -> vec X) (v0 v1 v2 : vec X -> vec X) : Prop :=
    (bounded N v0 /\ bounded N v1 /\ bounded N v2) /\
    exists C d, (0 <= C)%R /\ (0 < d)%R /\ forall t u, (Rabs t <= d)%R -> (N (vsub (phi t u) (poly v0 v1 v2 t u)) <= C * Rabs t ^ 3 * N u)%R.

  Lemma pow3_pos t : (0 <= Rabs t ^ 3)%R.
  Proof using. apply pow_le, Rabs_pos. Qed.

  Lemma pjet_id : pjet (fun _ u => u) (fun u => u) (fun _ => vzero) (fun _ => vzero).
  Proof using HN.
    split; [repeat split; auto using bounded_id, bounded_zero|]. exists 0%R, 1%R. split; [lra|]. split; [lra|].
    intros t u _. replace (vsub _ _) with (@vzero X); [rewrite N0; lra|].
    apply vec_ext; intros x. unfold vsub, poly, vadd, vscal, vzero. ring.
  Qed.

  Lemma pjet_add phi psi v0 v1 v2 w0 w1 w2 : pjet phi v0 v1 v2 -> pjet psi w0 w1 w2 ->
    pjet (fun t u => vadd (phi t u) (psi t u)) (fun u => vadd (v0 u) (w0 u)) (fun u => vadd (v1 u) (w1 u)) (fun u => vadd (v2 u) (w2 u)).
  Proof using HN.
    intros [(B0 & B1 & B2) (C & d & HC & Hd & H)] [(E0 & E1 & E2) (C' & d' & HC' & Hd' & H')].
    split; [repeat split; apply bounded_add; auto|]. exists (C + C')%R, (Rmin d d'). split; [lra|]. split; [apply Rmin_glb_lt; auto|].
    intros t u Ht. pose proof (Rmin_l d d'). pose proof (Rmin_r d d').
    specialize (H t u ltac:(lra)). specialize (H' t u ltac:(lra)).
    replace (vsub _ _) with (vadd (vsub (phi t u) (poly v0 v1 v2 t u)) (vsub (psi t u) (poly w0 w1 w2 t u)))
      by (apply vec_ext; intros x; unfold vsub, poly, vadd, vscal; ring).
    eapply Rle_trans; [apply Nadd|]. lra.
  Qed.

  Lemma pjet_scal c phi v0 v1 v2 : pjet phi v0 v1 v2 ->
    pjet (fun t u => vscal c (phi t u)) (fun u => vscal c (v0 u)) (fun u => vscal c (v1 u)) (fun u => vscal c (v2 u)).
  Proof using HN.
    intros [(B0 & B1 & B2) (C & d & HC & Hd & H)].
    split; [repeat split; apply bounded_scal; auto|]. exists (Rabs c * C)%R, d. split; [apply Rmult_le_pos; auto; apply Rabs_pos|]. split; auto.
    intros t u Ht. specialize (H t u Ht).
    replace (vsub _ _) with (vscal c (vsub (phi t u) (poly v0 v1 v2 t u)))
      by (apply vec_ext; intros x; unfold vsub, poly, vadd, vscal; ring).
    rewrite Nscal, !Rmult_assoc. apply Rmult_le_compat_l; [apply Rabs_pos|]. rewrite <- Rmult_assoc. exact H.
  Qed.

  Lemma lin0 (L : vec X -> vec X) : linear L -> L vzero = vzero.
  Proof using. intros [_ H2]. replace (@vzero X) with (vscal 0 (@vzero X)) at 1 by (apply vec_ext; intros; unfold vscal, vzero; ring). rewrite H2. apply vec_ext; intros; unfold vscal, vzero; ring. Qed.
  Lemma lin_sub (L : vec X -> vec X) : linear L -> forall u v, L (vsub u v) = vsub (L u) (L v).
  Proof using.
    intros [H1 H2] u v. replace (vsub u v) with (vadd u (vscal (-1) v)) by (apply vec_ext; intros; unfold vsub, vadd, vscal; ring).
    rewrite H1, H2. apply vec_ext; intros; unfold vsub, vadd, vscal; ring.
  Qed.

  Lemma pjet_tL L phi v0 v1 v2 : linear L -> bounded N L -> pjet phi v0 v1 v2 ->
    pjet (fun t u => vscal t (L (phi t u))) (fun _ => vzero) (fun u => L (v0 u)) (fun u => L (v1 u)).
  Proof using HN.
    intros HL HLb [(B0 & B1 & B2) (C & d & HC & Hd & H)].
    assert (BL2 := bounded_comp HLb B2). destruct BL2 as [K2 [HK2 H2]].
    split; [repeat split; auto using bounded_zero, bounded_comp|]. destruct HLb as [K [HK HLb]].
    exists (K * C + K2)%R, (Rmin d 1). split; [assert (0 <= K * C)%R by (apply Rmult_le_pos; auto); lra|].
    split; [apply Rmin_glb_lt; lra|].
    intros t u Ht. pose proof (Rmin_l d 1). pose proof (Rmin_r d 1). specialize (H t u ltac:(lra)).
    replace (vsub _ _) with (vadd (vscal t (L (vsub (phi t u) (poly v0 v1 v2 t u)))) (vscal (t ^ 3) (L (v2 u)))).
    2:{ rewrite lin_sub by auto. destruct HL as [L1 L2]. unfold poly. rewrite !L1, !L2.
        apply vec_ext; intros x; unfold vsub, vadd, vscal, vzero. ring. }
    eapply Rle_trans; [apply Nadd|]. rewrite !Nscal, <- RPow_abs.
    assert (HA : (N (L (vsub (phi t u) (poly v0 v1 v2 t u))) <= K * (C * Rabs t ^ 3 * N u))%R).
    { eapply Rle_trans; [apply HLb|]. apply Rmult_le_compat_l; auto. }
    specialize (H2 u). pose proof (pow3_pos t) as H3. pose proof (Npos u) as HNu. pose proof (Rabs_pos t) as Hat.
    assert (HB : (Rabs t * N (L (vsub (phi t u) (poly v0 v1 v2 t u))) <= 1 * (K * (C * Rabs t ^ 3 * N u)))%R).
    { apply Rmult_le_compat; auto; try apply Npos. lra. }
    assert (HD : (Rabs t ^ 3 * N (L (v2 u)) <= Rabs t ^ 3 * (K2 * N u))%R) by (apply Rmult_le_compat_l; auto).
    lra.
  Qed.

  Lemma pjet_solve G Ginv m phi v0 v1 v2 : linear G -> bounded N G ->
    (exists d0, (0 < d0)%R /\ forall h, (Rabs h <= d0)%R -> solves G Ginv h) -> pjet phi v0 v1 v2 ->
    pjet (fun t u => Ginv (phi t u) (m * t)%R) v0 (fun u => vadd (v1 u) (vscal m (G (v0 u))))
         (fun u => vadd (v2 u) (vscal m (G (vadd (v1 u) (vscal m (G (v0 u))))))).
  Proof using HN.
    intros HG HGb (d0 & Hd0 & HS) [(B0 & B1 & B2) (C & d & HC & Hd & H)].
    assert (B1' : bounded N (fun u => vadd (v1 u) (vscal m (G (v0 u))))) by (apply bounded_add; auto; apply bounded_scal; apply (bounded_comp HGb B0)).
    assert (B2' : bounded N (fun u => vadd (v2 u) (vscal m (G (vadd (v1 u) (vscal m (G (v0 u)))))))) by (apply bounded_add; auto; apply bounded_scal; apply (bounded_comp HGb B1')).
    split; [repeat split; auto|].
    assert (B3 := bounded_comp HGb B2'). destruct B3 as [K3 [HK3 H3]]. destruct HGb as [K [HK HGb]].
    set (M := (Rabs m + 1)%R). assert (HM : (0 < M)%R) by (unfold M; pose proof (Rabs_pos m); lra).
    set (e := (/ (2 * (M * (K + 1))))%R).
    assert (HMK : (0 < M * (K + 1))%R) by (apply Rmult_lt_0_compat; lra).
    assert (He : (0 < e)%R) by (apply Rinv_0_lt_compat; lra).
    exists (2 * (C + Rabs m * K3))%R, (Rmin d (Rmin (d0 / M) e)).
    assert (HmK3 : (0 <= Rabs m * K3)%R) by (apply Rmult_le_pos; auto; apply Rabs_pos).
    split; [lra|]. assert (Hd0M : (0 < d0 / M)%R) by (apply Rdiv_lt_0_compat; auto).
    split; [repeat apply Rmin_glb_lt; auto|].
    intros t u Ht. pose proof (Rmin_l d (Rmin (d0 / M) e)) as R1. pose proof (Rmin_r d (Rmin (d0 / M) e)) as R2.
    pose proof (Rmin_l (d0 / M) e) as R3. pose proof (Rmin_r (d0 / M) e) as R4. pose proof (Rabs_pos t) as Hat.
    specialize (H t u ltac:(lra)).
    assert (Hmt : (Rabs (m * t) <= d0)%R).
    { rewrite Rabs_mult. apply Rle_trans with (M * (d0 / M))%R; [|right; field; lra].
      apply Rmult_le_compat; try apply Rabs_pos; try lra. unfold M; lra. }
    specialize (HS _ Hmt (phi t u)). set (r := Ginv (phi t u) (m * t)%R) in *.
    set (p := poly v0 (fun u => vadd (v1 u) (vscal m (G (v0 u)))) (fun u => vadd (v2 u) (vscal m (G (vadd (v1 u) (vscal m (G (v0 u))))))) t u).
    set (er := vsub r p).
    assert (Her : er = vadd (vadd (vsub (phi t u) (poly v0 v1 v2 t u)) (vscal (m * t ^ 3) (G (vadd (v2 u) (vscal m (G (vadd (v1 u) (vscal m (G (v0 u)))))))))) (vscal (m * t) (G er))).
    { unfold er at 2. rewrite lin_sub by auto. unfold er.
      assert (Ep : G p = vadd (vadd (G (v0 u)) (vscal t (G (vadd (v1 u) (vscal m (G (v0 u)))))))  (vscal (t ^ 2) (G (vadd (v2 u) (vscal m (G (vadd (v1 u) (vscal m (G (v0 u)))))))))).
      { destruct HG as [G1 G2]. unfold p, poly. rewrite (G1 (vadd (v0 u) _)), (G1 (v0 u)), !(G2 t), !(G2 (t ^ 2)%R). reflexivity. }
      rewrite Ep. apply vec_ext; intros x. specialize (HS x). unfold p, vsub, poly, vadd, vscal in *. lra. }
    assert (Hbd : (N er <= C * Rabs t ^ 3 * N u + Rabs m * K3 * Rabs t ^ 3 * N u + Rabs m * Rabs t * (K * N er))%R).
    { rewrite Her at 1. eapply Rle_trans; [apply Nadd|]. apply Rplus_le_compat.
      - eapply Rle_trans; [apply Nadd|]. apply Rplus_le_compat; auto.
        rewrite Nscal, Rabs_mult, <- RPow_abs. specialize (H3 u).
        replace (Rabs m * K3 * Rabs t ^ 3 * N u)%R with (Rabs m * Rabs t ^ 3 * (K3 * N u))%R by ring.
        apply Rmult_le_compat_l; auto. apply Rmult_le_pos; [apply Rabs_pos | apply pow3_pos].
      - rewrite Nscal, Rabs_mult. apply Rmult_le_compat_l; [apply Rmult_le_pos; apply Rabs_pos | apply HGb]. }
    assert (Hhalf : (Rabs m * Rabs t * K <= 1 / 2)%R).
    { apply Rle_trans with (M * e * (K + 1))%R; [|right; unfold e; field; lra].
      pose proof (Rabs_pos m). apply Rmult_le_compat; try lra; [apply Rmult_le_pos; lra|].
      apply Rmult_le_compat; try lra. unfold M; lra. }
    pose proof (Npos er) as Hp.
    assert (Hx : (Rabs m * Rabs t * (K * N er) <= 1 / 2 * N er)%R).
    { replace (Rabs m * Rabs t * (K * N er))%R with (Rabs m * Rabs t * K * N er)%R by ring. apply Rmult_le_compat_r; auto. }
    fold p. fold er. lra.
  Qed.

  Lemma pjet_ext phi psi v0 v1 v2 w0 w1 w2 : pjet phi v0 v1 v2 -> (forall t u, psi t u = phi t u) ->
    (forall u, w0 u = v0 u) -> (forall u, w1 u = v1 u) -> (forall u, w2 u = v2 u) -> pjet psi w0 w1 w2.
  Proof using.
    intros H E E0 E1 E2. replace psi with phi by (do 2 (apply functional_extensionality; intros); auto).
    replace w0 with v0 by (apply functional_extensionality; intros; auto).
    replace w1 with v1 by (apply functional_extensionality; intros; auto).
    replace w2 with v2 by (apply functional_extensionality; intros; auto). exact H.
  Qed.

  (** *** Numeric expansions in words of [F] and [G]. *)
  Record jt := mkjt { j0 : R; jf : R; jg : R; jff : R; jfg : R; jgf : R; jgg : R }.
  Context (F G : vec X -> vec X) (Ginv : vec X -> R -> vec X).
  Hypothesis HF : linear F.
  Hypothesis HG : linear G.
  Hypothesis BF : bounded N F.
  Hypothesis BG : bounded N G.
  Hypothesis HS : exists d0, (0 < d0)%R /\ forall h, (Rabs h <= d0)%R -> solves G Ginv h.

  Definition w0 (c : jt) (u : vec X) : vec X := vscal (j0 c) u.
  Definition w1 (c : jt) (u : vec X) : vec X := vadd (vscal (jf c) (F u)) (vscal (jg c) (G u)).
  Definition w2 (c : jt) (u : vec X) : vec X :=
    vadd (vadd (vscal (jff c) (F (F u))) (vscal (jfg c) (F (G u)))) (vadd (vscal (jgf c) (G (F u))) (vscal (jgg c) (G (G u)))).
  Definition cjet (phi : R -> vec X -> vec X) (c : jt) : Prop := pjet phi (w0 c) (w1 c) (w2 c).

  Definition jid : jt := mkjt 1 0 0 0 0 0 0.
  Definition jadd (a b : jt) : jt := mkjt (j0 a + j0 b) (jf a + jf b) (jg a + jg b) (jff a + jff b) (jfg a + jfg b) (jgf a + jgf b) (jgg a + jgg b).
  Definition jscal (k : R) (a : jt) : jt := mkjt (k * j0 a) (k * jf a) (k * jg a) (k * jff a) (k * jfg a) (k * jgf a) (k * jgg a).
  Definition jtF (a : jt) : jt := mkjt 0 (j0 a) 0 (jf a) (jg a) 0 0.
  Definition jtG (a : jt) : jt := mkjt 0 0 (j0 a) 0 0 (jf a) (jg a).
  Definition jsolve (m : R) (a : jt) : jt :=
    mkjt (j0 a) (jf a) (jg a + m * j0 a) (jff a) (jfg a) (jgf a + m * jf a) (jgg a + m * (jg a + m * j0 a)).

  Ltac wext := intros; apply vec_ext; intros; unfold w0, w1, w2, jid, jadd, jscal, jtF, jtG, jsolve, vadd, vscal, vzero; cbn [j0 jf jg jff jfg jgf jgg]; try ring.

  Lemma cjet_id : cjet (fun _ u => u) jid.
  Proof using HN. eapply pjet_ext; [apply pjet_id | reflexivity | wext | wext | wext]. Qed.
  Lemma cjet_add phi psi a b : cjet phi a -> cjet psi b -> cjet (fun t u => vadd (phi t u) (psi t u)) (jadd a b).
  Proof using HN. intros H1 H2. eapply pjet_ext; [apply (pjet_add H1 H2) | reflexivity | wext | wext | wext]. Qed.
  Lemma cjet_scal k phi a : cjet phi a -> cjet (fun t u => vscal k (phi t u)) (jscal k a).
  Proof using HN. intros H1. eapply pjet_ext; [apply (pjet_scal k H1) | reflexivity | wext | wext | wext]. Qed.
  Lemma cjet_zero : cjet (fun _ _ => vzero) (mkjt 0 0 0 0 0 0 0).
  Proof using HN. eapply pjet_ext; [apply (pjet_scal 0 pjet_id) | wext | wext | wext | wext]. Qed.
  Lemma cjet_tF phi a : cjet phi a -> cjet (fun t u => vscal t (F (phi t u))) (jtF a).
  Proof using HN HF BF.
    intros H1. destruct HF as [F1 F2]. eapply pjet_ext; [apply (pjet_tL HF BF H1) | reflexivity | wext | |].
    - intros u. unfold w0, w1. rewrite F2. wext.
    - intros u. unfold w1, w2. rewrite F1, !F2. wext.
  Qed.
  Lemma cjet_tG phi a : cjet phi a -> cjet (fun t u => vscal t (G (phi t u))) (jtG a).
  Proof using HN HG BG.
    intros H1. destruct HG as [F1 F2]. eapply pjet_ext; [apply (pjet_tL HG BG H1) | reflexivity | wext | |].
    - intros u. unfold w0, w1. rewrite F2. wext.
    - intros u. unfold w1, w2. rewrite F1, !F2. wext.
  Qed.
  Lemma cjet_solve m phi a : cjet phi a -> cjet (fun t u => Ginv (phi t u) (m * t)%R) (jsolve m a).
  Proof using HN HG BG HS.
    intros H1. assert (HG' := HG). destruct HG' as [F1 F2]. eapply pjet_ext; [apply (@pjet_solve G Ginv m phi _ _ _ HG BG HS H1) | reflexivity | wext | |].
    - intros u. unfold w0, w1. rewrite F2. wext.
    - intros u. unfold w0, w1, w2. repeat (rewrite ?F1, ?F2). wext.
  Qed.
  Lemma cjet_ext phi psi a b : cjet phi a -> (forall t u, psi t u = phi t u) -> a = b -> cjet psi b.
  Proof using. intros H E ->. eapply pjet_ext; eauto. Qed.

  Lemma taylor2 (A : vec X -> vec X) t u x : taylor A t 2 u x = (u x + t * A u x + t ^ 2 * (1 / 2 * A (A u) x))%R.
  Proof using. unfold taylor. cbn -[INR Rdiv pow]. simpl fact. simpl INR. simpl pow. field. Qed.
  Lemma taylor1 (A : vec X -> vec X) t u x : taylor A t 1 u x = (u x + t * A u x)%R.
  Proof using. unfold taylor. cbn -[INR Rdiv pow]. simpl fact. simpl INR. simpl pow. field. Qed.

  Lemma sum_linear : forall u v, vadd (F (vadd u v)) (G (vadd u v)) = vadd (vadd (F u) (G u)) (vadd (F v) (G v)).
  Proof using HF HG. intros u v. destruct HF as [F1 F2], HG as [G1 G2]. rewrite F1, G1. wext. Qed.

  Lemma cjet_second_order step c : cjet step c ->
    j0 c = 1%R -> jf c = 1%R -> jg c = 1%R -> jff c = (1 / 2)%R -> jfg c = (1 / 2)%R -> jgf c = (1 / 2)%R -> jgg c = (1 / 2)%R ->
    second_order N (fun u => vadd (F u) (G u)) step.
  Proof using HF HG.
    intros [_ (C & d & HC & Hd & H)] E0 E1 E2 E3 E4 E5 E6. exists C, d. split; auto. intros dt u Ht.
    specialize (H dt u Ht).
    replace (fun x => _) with (vsub (step dt u) (poly (w0 c) (w1 c) (w2 c) dt u)); auto.
    destruct HF as [F1 F2], HG as [G1 G2].
    apply vec_ext; intros x. unfold vsub. rewrite taylor2. rewrite F1, G1. unfold poly, w0, w1, w2. rewrite E0, E1, E2, E3, E4, E5, E6.
    unfold vadd, vscal. field.
  Qed.

  Lemma cjet_first_order step c : cjet step c -> j0 c = 1%R -> jf c = 1%R -> jg c = 1%R ->
    first_order N (fun u => vadd (F u) (G u)) step.
  Proof using HN HF HG.
    intros [(_ & _ & [K [HK HB]]) (C & d & HC & Hd & H)] E0 E1 E2. exists (C + K)%R, (Rmin d 1). split; [apply Rmin_glb_lt; lra|]. intros dt u Ht.
    pose proof (Rmin_l d 1). pose proof (Rmin_r d 1).
    specialize (H dt u ltac:(lra)).
    replace (fun x => _) with (vadd (vsub (step dt u) (poly (w0 c) (w1 c) (w2 c) dt u)) (vscal (dt ^ 2) (w2 c u))).
    2:{ apply vec_ext; intros x. unfold vsub, vadd at 1. rewrite taylor1. unfold poly, w0, w1. rewrite E0, E1, E2. unfold vadd, vscal. ring. }
    eapply Rle_trans; [apply Nadd|]. rewrite Nscal, <- RPow_abs. specialize (HB u). pose proof (Npos u). pose proof (Rabs_pos dt).
    assert (Ha : (Rabs dt ^ 2 * N (w2 c u) <= Rabs dt ^ 2 * (K * N u))%R) by (apply Rmult_le_compat_l; auto; apply pow_le; auto).
    assert (Hb : (C * Rabs dt ^ 3 * N u <= C * Rabs dt ^ 2 * N u)%R).
    { apply Rmult_le_compat_r; auto. apply Rmult_le_compat_l; auto.
      replace (Rabs dt ^ 3)%R with (Rabs dt ^ 2 * Rabs dt)%R by ring. rewrite <- (Rmult_1_r (Rabs dt ^ 2)) at 2.
      apply Rmult_le_compat_l; [apply pow_le; auto | lra]. }
    lra.
  Qed.

  (** *** The low-storage recursion on expansions: [t h] and [u]. *)
  Fixpoint ls_jets (n k : nat) (al be ga : list R) (ht u : jt) : jt :=
    match n with
    | O => u
    | S n => let ht' := jadd (jtF u) (jscal (nth k be 0%R) ht) in
             let m := (1 / 2 * (nth (S k) al 0 - nth k al 0))%R in
             let u' := jsolve m (jadd (jadd u (jscal (nth k ga 0%R) ht')) (jscal m (jtG u))) in
             ls_jets n (S k) al be ga ht' u'
    end.

  Lemma ls_cjet al be ga : length al = length be + 1 -> length ga = length be ->
    exists step, (forall dt u, low_storage_rk_cn al be ga F G Ginv dt u = Ok (step dt u)) /\
      cjet step (ls_jets (length be) 0 al be ga (mkjt 0 0 0 0 0 0 0) jid).
  Proof using HN HF HG BF BG HS.
    intros Hal Hga.
    set (mu := fun k => (1 / 2 * (nth (S k) al 0 - nth k al 0))%R).
    set (nxt := fun (k : nat) (t : R) (hu : vec X * vec X) =>
       let h' := vadd (F (snd hu)) (vscal (nth k be 0%R) (fst hu)) in
       (h', Ginv (vadd (vadd (snd hu) (vscal (nth k ga 0%R * t) h')) (vscal (1 / 2 * t * (nth (S k) al 0 - nth k al 0))%R (G (snd hu)))) (1 / 2 * t * (nth (S k) al 0 - nth k al 0))%R)).
    set (iter := fix iter (n k : nat) (t : R) (hu : vec X * vec X) : vec X * vec X := match n with O => hu | S n => iter n (S k) t (nxt k t hu) end).
    exists (fun t u => snd (iter (length be) 0 t (vzero, u))). split.
    - intros dt u. unfold low_storage_rk_cn.
      replace (Z.of_nat (length al) - 1 =? Z.of_nat (length be))%Z with true by (symmetry; apply Z.eqb_eq; lia). cbn [negb andb].
      set (body := fun hu k => _).
      assert (Hl : forall n k hu, k + n <= length be -> foldM body hu (seq k n) = Ok (iter n k dt hu)).
      { induction n as [|n IH]; intros k hu Hk; [reflexivity|]. cbn [seq foldM]. 
        assert (Eb : body hu k = Ok (nxt k dt hu)).
        { unfold body. destruct hu as [h v].
          rewrite (nth_error_nth' be 0%R) by lia. rewrite !(nth_error_nth' al 0%R) by lia. rewrite (nth_error_nth' ga 0%R) by lia.
          replace (k + 1) with (S k) by lia. reflexivity. }
        rewrite Eb. cbn [bind]. rewrite IH by lia. reflexivity. }
      rewrite Hl by lia. reflexivity.
    - assert (Hc : forall n k (hu : R -> vec X -> vec X * vec X) jh ju,
                 cjet (fun t u => vscal t (fst (hu t u))) jh -> cjet (fun t u => snd (hu t u)) ju ->
                 cjet (fun t u => snd (iter n k t (hu t u))) (ls_jets n k al be ga jh ju)).
      { induction n as [|n IH]; intros k hu jh ju Hh Hu; cbn [iter ls_jets]; [exact Hu|].
        assert (Hh' : cjet (fun t u => vscal t (fst (nxt k t (hu t u)))) (jadd (jtF ju) (jscal (nth k be 0%R) jh))).
        { eapply cjet_ext; [apply cjet_add; [apply (cjet_tF Hu) | apply (cjet_scal (nth k be 0%R) Hh)] | | reflexivity].
          intros t u. unfold nxt. cbn [fst]. wext. }
        apply (IH (S k) (fun t u => nxt k t (hu t u))); auto.
        eapply cjet_ext.
        - apply (cjet_solve (mu k)). apply cjet_add; [apply cjet_add; [exact Hu | apply (cjet_scal (nth k ga 0%R) Hh')]|].
          apply (cjet_scal (mu k)), (cjet_tG Hu).
        - intros t u. cbv beta. unfold nxt. cbn [snd fst]. unfold mu.
          replace (1 / 2 * t * (nth (S k) al 0 - nth k al 0))%R with (1 / 2 * (nth (S k) al 0 - nth k al 0) * t)%R by ring.
          f_equal. wext.
        - reflexivity. }
      apply (Hc (length be) 0 (fun _ u => (vzero, u))).
      + eapply cjet_ext; [apply cjet_zero | intros t u; cbn [fst]; wext | reflexivity].
      + exact cjet_id.
  Qed.
End Jets.

(** [make]d steppers return [result]s. *)
Definition second_order_scheme {X} (N : vec X -> R) A (scheme : R -> vec X -> result (vec X)) : Prop :=
  exists step, (forall dt u, scheme dt u = Ok (step dt u)) /\ second_order N A step.

(** A linear problem u' = F u + G u with bounded parts and an implicit solve that is exact for small enough steps. *)
Definition linear_problem {X} (N : vec X -> R) (F G : vec X -> vec X) (Ginv : vec X -> R -> vec X) : Prop :=
  seminorm N /\ linear F /\ linear G /\ bounded N F /\ bounded N G /\
  exists d0, (0 < d0)%R /\ forall h, (Rabs h <= d0)%R -> solves G Ginv h.

(** Example problem on the plane: F is a shear, G damps the first component; they do not commute. *)
Definition pN (u : vec bool) : R := (Rabs (u true) + Rabs (u false))%R.
Definition pF (u : vec bool) : vec bool := fun x => if x then u false else 0%R.
Definition pG (u : vec bool) : vec bool := fun x => if x then (- u true)%R else 0%R.
Definition pGi (y : vec bool) (h : R) : vec bool := fun x => if x then (y true / (1 + h))%R else y false.
Lemma example_problem : linear_problem pN pF pG pGi /\ pF (pG (fun _ => 1%R)) <> pG (pF (fun _ => 1%R)).
Proof.
  split.
  - split; [|split; [|split; [|split; [|split]]]].
    + split.
      * intros u v. unfold pN, vadd. pose proof (Rabs_triang (u true) (v true)). pose proof (Rabs_triang (u false) (v false)). lra.
      * intros c u. unfold pN, vscal. rewrite !Rabs_mult. ring.
    + split; intros; apply vec_ext; intros []; unfold pF, vadd, vscal; ring.
    + split; intros; apply vec_ext; intros []; unfold pG, vadd, vscal; ring.
    + exists 1%R. split; [lra|]. intros u. unfold pN, pF. rewrite Rabs_R0. pose proof (Rabs_pos (u true)). lra.
    + exists 1%R. split; [lra|]. intros u. unfold pN, pG. rewrite Rabs_Ropp, Rabs_R0. pose proof (Rabs_pos (u false)). lra.
    + exists (1 / 2)%R. split; [lra|]. intros h Hh y x. unfold pG, pGi. destruct x; [|ring].
      assert (1 + h <> 0)%R by (unfold Rabs in Hh; destruct (Rcase_abs h); lra). field. auto.
  - intros H. assert (H' := f_equal (fun f => f true) H). unfold pF, pG in H'. cbn in H'. lra.
Qed.

(* @prop C37 backward_forward_euler is first-order accurate on every bounded linear problem (the explicit and implicit parts need not commute): its local error against exp(dt(F+G)) is at most C |dt|^2 |u|. *)
Lemma backward_forward_euler_order_lem : forall X (N : vec X -> R) F G Ginv,
  linear_problem N F G Ginv ->
  first_order N (fun u => vadd (F u) (G u)) (backward_forward_euler F Ginv).
Proof.
  intros X N F G Ginv (HN & HF & HG & BF & BG & HS).
  assert (H : cjet N F G (backward_forward_euler F Ginv) (jsolve 1 (jadd jid (jtF jid)))).
  { eapply cjet_ext; [apply (@cjet_solve X N HN F G Ginv HG BG HS 1); apply cjet_add; auto; [apply cjet_id; auto | apply (@cjet_tF X N HN F G HF BF); apply cjet_id; auto] | | reflexivity].
    intros t u. unfold backward_forward_euler. rewrite Rmult_1_l. reflexivity. }
  apply (cjet_first_order HN HF HG H); cbn; lra.
Qed.
(* @ex *)
Lemma backward_forward_euler_order_ex_lem : linear_problem pN pF pG pGi.
Proof. apply example_problem. Qed.

(* @prop C37 crank_nicolson_rk2 is second-order accurate on every bounded linear problem (non-commuting parts included): local error at most C |dt|^3 |u|. *)
Lemma crank_nicolson_rk2_order_lem : forall X (N : vec X -> R) F G Ginv,
  linear_problem N F G Ginv ->
  second_order N (fun u => vadd (F u) (G u)) (crank_nicolson_rk2 F G Ginv).
Proof.
  intros X N F G Ginv (HN & HF & HG & BF & BG & HS).
  assert (HI : cjet N F G (fun _ u => u) jid) by (apply cjet_id; auto).
  assert (HTF := @cjet_tF X N HN F G HF BF). assert (HTG := @cjet_tG X N HN F G HG BG).
  assert (HA := @cjet_add X N HN F G). assert (HC := @cjet_scal X N HN F G). assert (HSo := @cjet_solve X N HN F G Ginv HG BG HS).
  assert (Hg : cjet N F G (fun t u => vadd u (vscal (1 / 2 * t) (G u))) (jadd jid (jscal (1 / 2) (jtG jid)))).
  { eapply cjet_ext; [apply HA; [exact HI | apply (HC (1 / 2)%R), HTG, HI] | | reflexivity].
    intros t u. apply vec_ext; intros x. unfold vadd, vscal. ring. }
  assert (H1 := HSo (1 / 2)%R _ _ (HA _ _ _ _ Hg (HTF _ _ HI))). cbv beta in H1.
  assert (H2 := HSo (1 / 2)%R _ _ (HA _ _ _ _ Hg (HC (1 / 2)%R _ _ (HA _ _ _ _ (HTF _ _ H1) (HTF _ _ HI))))). cbv beta in H2.
  eapply (@cjet_second_order X N F G HF HG).
  - eapply cjet_ext; [exact H2 | | reflexivity].
    intros t u. unfold crank_nicolson_rk2. f_equal. apply vec_ext; intros x. unfold vadd, vscal. ring.
  - cbn; lra.
  - cbn; lra.
  - cbn; lra.
  - cbn; lra.
  - cbn; lra.
  - cbn; lra.
  - cbn; lra.
Qed.
(* @ex *)
Lemma crank_nicolson_rk2_order_ex_lem : linear_problem pN pF pG pGi.
Proof. apply example_problem. Qed.

(* @prop C37 crank_nicolson_rk3 is second-order accurate on every bounded linear problem, and without implicit terms it is third order: exactly the Taylor polynomial of degree 3. *)
Lemma crank_nicolson_rk3_order_lem : forall X (N : vec X -> R) F G Ginv,
  (linear_problem N F G Ginv -> second_order_scheme N (fun u => vadd (F u) (G u)) (crank_nicolson_rk3 F G Ginv)) /\
  (linear F -> forall dt u, crank_nicolson_rk3 F (fun _ => vzero) (fun y _ => y) dt u = Ok (taylor F dt 3 u)).
Proof.
  intros X N F G Ginv. split.
  - intros (HN & HF & HG & BF & BG & HS).
    destruct (@ls_cjet X N HN F G Ginv HF HG BF BG HS [0; 1 / 3; 3 / 4; 1]%R [0; - (5 / 9); - (153 / 128)]%R [1 / 3; 15 / 16; 8 / 15]%R) as (step & Hs & Hj); [reflexivity | reflexivity|].
    exists step. split; [exact Hs|]. apply (cjet_second_order HF HG Hj); cbn; lra.
  - intros [F1 F2] dt u. unfold crank_nicolson_rk3, low_storage_rk_cn. cbn -[Rdiv Rmult Rminus taylor]. f_equal.
    rewrite <- ?(vec_ext (fun x => 0)%R vzero (fun x => eq_refl)).
    assert (Z : forall (w : vec X) c, vadd w (vscal c vzero) = w) by (intros; apply vec_ext; intros x; unfold vadd, vscal, vzero; ring).
    rewrite !Z. repeat (rewrite ?F1, ?F2). unfold taylor. cbn -[INR Rdiv]. simpl fact. simpl INR.
    apply vec_ext; intros x. unfold vadd, vscal. field.
Qed.
(* @ex *)
Lemma crank_nicolson_rk3_order_ex_lem : linear_problem pN pF pG pGi /\ linear pF.
Proof. split; [apply example_problem|]. apply example_problem. Qed.

(** ** C38: imex_rk_sil3 *)
(* @prop C38 imex_rk_sil3 is second-order accurate on every bounded linear problem (non-commuting parts included), and without implicit terms it is third order: exactly the Taylor polynomial of degree 3. *)
Lemma imex_sil3_order_lem : forall X (N : vec X -> R) F G Ginv,
  (linear_problem N F G Ginv ->
     exists step, (forall dt u, exists lf lg, imex_rk_sil3 F G Ginv dt u = Ok (step dt u, lf, lg)) /\
       second_order N (fun u => vadd (F u) (G u)) step) /\
  (linear F -> forall dt u, exists lf lg, imex_rk_sil3 F (fun _ => vzero) (fun y _ => y) dt u = Ok (taylor F dt 3 u, lf, lg)).
Proof.
  intros X N F G Ginv.
  set (aex := [[1 / 3]; [1 / 6; 1 / 2]; [1 / 2; - (1 / 2); 1]]%R).
  set (aim := [[1 / 6; 1 / 6]; [1 / 3; 0; 1 / 3]; [3 / 8; 0; 3 / 8; 1 / 4]]%R).
  set (bex := [1 / 2; - (1 / 2); 1; 0]%R). set (bim := [3 / 8; 0; 3 / 8; 1 / 4]%R).
  assert (Hre : full_rows 0 aex) by (intros [|[|[|i]]] Hi; cbn in *; lia).
  assert (Hri : full_rows 1 aim) by (intros [|[|[|i]]] Hi; cbn in *; lia).
  assert (Hrun : forall F G Ginv dt y0,
     let k := fun (aij : R) (v : vec X) => vscal (aij * dt) v in
     let Y1 := Ginv (vadd (vadd y0 (k (1 / 3)%R (F y0))) (k (1 / 6)%R (G y0))) (1 / 6 * dt)%R in
     let Y2 := Ginv (vadd (vadd (vadd y0 (k (1 / 6)%R (F y0))) (k (1 / 2)%R (F Y1))) (k (1 / 3)%R (G y0))) (1 / 3 * dt)%R in
     let Y3 := Ginv (vadd (vadd (vadd (vadd (vadd y0 (k (1 / 2)%R (F y0))) (k (- (1 / 2))%R (F Y1))) (k 1%R (F Y2))) (k (3 / 8)%R (G y0))) (k (3 / 8)%R (G Y2))) (1 / 4 * dt)%R in
     exists lf lg, imex_rk_sil3 F G Ginv dt y0 =
       Ok (vadd (vadd (vadd (vadd (vadd (vadd y0 (k (1 / 2)%R (F y0))) (k (- (1 / 2))%R (F Y1))) (k 1%R (F Y2))) (k (3 / 8)%R (G y0))) (k (3 / 8)%R (G Y2))) (k (1 / 4)%R (G Y3)), lf, lg)).
  { clear F G Ginv N. intros F G Ginv dt y0 k Y1 Y2 Y3. unfold imex_rk_sil3. fold aex aim bex bim.
    assert (Ht : imex_butcher_tableau aex aim bex bim = Ok (mkimex aex aim bex bim)) by reflexivity.
    rewrite Ht. cbn [bind].
    destruct (@imex_full_sum_lem X aex aim bex bim _ F G Ginv dt y0 Ht) as ((Y & HY) & Hall).
    - intros [|[|[|i]]] Hi; cbn in *; lia.
    - intros [|[|[|i]]] Hi; cbn in *; lia.
    - destruct (Hall Y HY) as (lf & lg & HE & _). exists lf, lg. rewrite HE. clear HE Hall.
      destruct HY as [E0 HY]. assert (H1 := HY 1 ltac:(cbn; lia)). assert (H2 := HY 2 ltac:(cbn; lia)). assert (H3 := HY 3 ltac:(cbn; lia)). clear HY.
      cbn -[Rdiv Rmult Rplus Ropp] in H1, H2, H3. rewrite E0 in *.
      assert (E1 : Y 1 = Y1) by (rewrite H1; unfold Y1; f_equal; [apply vec_ext; intros x; unfold k, vadd, vscal; ring | ring]).
      rewrite E1 in *.
      assert (E2 : Y 2 = Y2) by (rewrite H2; unfold Y2; f_equal; [apply vec_ext; intros x; unfold k, vadd, vscal; ring | ring]).
      rewrite E2 in *.
      assert (E3 : Y 3 = Y3) by (rewrite H3; unfold Y3; f_equal; [apply vec_ext; intros x; unfold k, vadd, vscal; ring | ring]).
      do 2 f_equal. f_equal. apply vec_ext; intros x. cbn -[Rdiv Rmult Rplus Ropp]. rewrite E0, E1, E2, E3. unfold k, vadd, vscal. ring. }
  split.
  - intros (HN & HF & HG & BF & BG & HS).
    assert (HI : cjet N F G (fun _ u => u) jid) by (apply cjet_id; auto).
    assert (HTF := @cjet_tF X N HN F G HF BF). assert (HTG := @cjet_tG X N HN F G HG BG).
    assert (HA := @cjet_add X N HN F G). assert (HC := @cjet_scal X N HN F G). assert (HSo := @cjet_solve X N HN F G Ginv HG BG HS).
    assert (HkF : forall c phi a, cjet N F G phi a -> cjet N F G (fun t u => vscal (c * t) (F (phi t u))) (jscal c (jtF a))).
    { intros c phi a H. eapply cjet_ext; [apply (HC c), HTF, H | | reflexivity]. intros t u. apply vec_ext; intros x. unfold vscal. ring. }
    assert (HkG : forall c phi a, cjet N F G phi a -> cjet N F G (fun t u => vscal (c * t) (G (phi t u))) (jscal c (jtG a))).
    { intros c phi a H. eapply cjet_ext; [apply (HC c), HTG, H | | reflexivity]. intros t u. apply vec_ext; intros x. unfold vscal. ring. }
    assert (H1 := HSo (1 / 6)%R _ _ (HA _ _ _ _ (HA _ _ _ _ HI (HkF (1 / 3)%R _ _ HI)) (HkG (1 / 6)%R _ _ HI))).
    assert (H2 := HSo (1 / 3)%R _ _ (HA _ _ _ _ (HA _ _ _ _ (HA _ _ _ _ HI (HkF (1 / 6)%R _ _ HI)) (HkF (1 / 2)%R _ _ H1)) (HkG (1 / 3)%R _ _ HI))).
    assert (H3 := HSo (1 / 4)%R _ _ (HA _ _ _ _ (HA _ _ _ _ (HA _ _ _ _ (HA _ _ _ _ (HA _ _ _ _ HI (HkF (1 / 2)%R _ _ HI)) (HkF (- (1 / 2))%R _ _ H1)) (HkF 1%R _ _ H2)) (HkG (3 / 8)%R _ _ HI)) (HkG (3 / 8)%R _ _ H2))).
    assert (H4 := HA _ _ _ _ (HA _ _ _ _ (HA _ _ _ _ (HA _ _ _ _ (HA _ _ _ _ (HA _ _ _ _ HI (HkF (1 / 2)%R _ _ HI)) (HkF (- (1 / 2))%R _ _ H1)) (HkF 1%R _ _ H2)) (HkG (3 / 8)%R _ _ HI)) (HkG (3 / 8)%R _ _ H2)) (HkG (1 / 4)%R _ _ H3)).
    eexists. split; [intros dt u; exact (Hrun F G Ginv dt u)|].
    apply (cjet_second_order HF HG H4); cbn; lra.
  - intros [F1 F2] dt u. destruct (Hrun F (fun _ => vzero) (fun y _ => y) dt u) as (lf & lg & E). exists lf, lg. rewrite E. do 3 f_equal.
    assert (Z : forall (w : vec X) c, vadd w (vscal c vzero) = w) by (intros; apply vec_ext; intros x; unfold vadd, vscal, vzero; ring).
    cbv zeta. rewrite !Z. repeat (rewrite ?F1, ?F2). unfold taylor. cbn -[INR Rdiv]. simpl fact. simpl INR.
    apply vec_ext; intros x. unfold vadd, vscal. field.
Qed.
(* @ex *)
Lemma imex_sil3_order_ex_lem : linear_problem pN pF pG pGi /\ linear pF.
Proof. split; [apply example_problem|]. apply example_problem. Qed.
