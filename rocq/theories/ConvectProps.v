(** * C29, C55: convection of a staggered velocity; quadratic invariants of centred advection *)
From Coq Require Import Qreals.
From Verif Require Import Prelude NdArr Grids_model Spec Boundaries_model BoundariesPeriodic FD_model PRep FDProofs FDProps WallBC WallBCProps ImposeProps Pressure_model PressureProps Interp_model InterpProofs InterpProps UpwindProps TvdProps Advection_model AdvectionProofs AdvectionProps.
Set Implicit Arguments.
Local Open Scope Z_scope.

Lemma lerp_half s n o p a F : off_eq p (offs a (1 # 2) o) -> (a < length o)%nat -> forall ix, length ix = length (s : list nat) ->
  lerp n o p F ix = if (a <? n)%nat then ((F ix + F (next a ix)) / 2)%R else F ix.
Proof.
  intros Hp Ha. induction n as [|n IH]; intros ix Hix; [reflexivity|]. simpl lerp.
  pose proof (off_eq_nth n Hp) as Hn.
  destruct (Nat.eq_dec n a) as [->|Hne].
  - unfold offs in Hn. rewrite nth_upd_same in Hn by auto.
    rewrite (@lerp_axis_comp a _ (1 # 2)%Q) by (rewrite Hn; ring).
    unfold lerp_axis. change (Qfloor (1 # 2)) with 0. rewrite shiftix_0. change (0 + 1) with 1. rewrite !IH by (rewrite ?shiftix_length; auto).
    replace (a <? a)%nat with false by (symmetry; apply Nat.ltb_irrefl). replace (a <? S a)%nat with true by (symmetry; apply Nat.ltb_lt; lia).
    replace (Q2R ((1 # 2) - inject_Z 0)) with (/ 2)%R by (unfold Q2R; simpl; lra). unfold next. lra.
  - unfold offs in Hn. rewrite nth_upd_other in Hn by auto.
    rewrite (@lerp_axis_comp n _ (inject_Z 0)) by (rewrite Hn; change (inject_Z 0) with 0%Q; ring).
    rewrite lerp_axis_int, shiftix_0, IH by auto.
    replace (a <? S n)%nat with (a <? n)%nat; [reflexivity|]. destruct (Nat.ltb_spec a n), (Nat.ltb_spec a (S n)); auto; lia.
Qed.

(** Mean of two neighbours along axis [a]. *)
Definition avg (a : nat) (F : list Z -> R) (ix : list Z) : R := ((F ix + F (next a ix)) / 2)%R.
Lemma avg_periodic s a F : periodic s F -> periodic s (avg a F).
Proof. intros H ix Hix. unfold avg. rewrite (H ix Hix). unfold next. pose proof (periodic_shift a 1 H ix Hix) as P. cbv beta in P. rewrite P. reflexivity. Qed.
Lemma next_comm a b ix : next a (next b ix) = next b (next a ix).
Proof. apply shiftix_comm. Qed.

(** ** C29 *)
Section Conv.
Variables (g : grid) (o : list Q) (v : list gvar).
Hypothesis (Hd : (0 < gndim g)%nat) (Hv : periodic_vec g v) (Hh : homogeneous_vec v) (Ho : length o = gndim g) (Hf : face_aligned o v).
Let n := gndim g.
Let A i j := avg j (vval v i).
Let t i j := offs j (1 # 2) (offs i (1 # 2) o).

Lemma t_sym i j : off_eq (t i j) (t j i).
Proof. apply offs_comm. Qed.
Lemma t_len i j : length (t i j) = n.
Proof. unfold t. rewrite !offs_length. exact Ho. Qed.
Lemma voff i : (i < n)%nat -> off_eq (goff (garray (nth i v dgv))) (offs i (1 # 2) o).
Proof. intros Hi. apply Hf. apply nth_error_nth'. destruct Hv. fold n in H. lia. Qed.
Lemma A_per i j : (i < n)%nat -> periodic (gshape g) (A i j).
Proof. intros Hi. apply avg_periodic. eapply periodic_vval; eauto. Qed.

Lemma lin_prep i j oo : (i < n)%nat -> (j < n)%nat -> off_eq oo (offs j (1 # 2) (goff (garray (nth i v dgv)))) ->
  exists w, linear_interp (nth i v dgv) oo = Ok w /\ gbc w = gbc (nth i v dgv) /\ pvar g (t i j) (A i j) w.
Proof.
  intros Hi Hj He. destruct (periodic_vec_nth Hv Hi) as (Hp & Hpg). pose proof (periodic_vec_wfg Hd Hv) as Hw.
  pose proof (periodic_vec_pvar Hv Hi) as Pv. pose proof (periodic_vval Hv Hi) as Pp.
  pose proof (pf_off Hp) as Po. rewrite Hpg in Po.
  assert (HL : length oo = gndim g) by (rewrite (off_eq_length He), offs_length; auto).
  destruct (@lin_all_prep g _ _ _ oo Hw Pp Po HL Pv) as (w & E & Eb & (P & Pb)).
  exists w. split; [exact E|]. split; [exact Eb|]. split; [|exact Pb].
  apply (@prep_off _ oo).
  { eapply off_eq_trans; [exact He|]. apply off_eq_offs; [apply voff; auto | reflexivity]. }
  eapply prep_ext; [|exact P]. intros ix Hix. rewrite (@lerp_half (gshape g) _ _ _ j) by (auto using inb_length; rewrite Po; auto).
  fold n. replace (j <? n)%nat with true by (symmetry; apply Nat.ltb_lt; auto). reflexivity.
Qed.

Lemma getM_nth {B} (l : list B) i d : (i < length l)%nat -> getM l i = Ok (nth i l d).
Proof. intros H. unfold getM. rewrite (nth_error_nth' l d) by auto. reflexivity. Qed.

Definition entry i j (w : gvar) : Prop := gbc w = gbc (nth i v dgv) /\ pvar g (t i j) (A i j) w.
Lemma align_prep : exists al, align_velocities v = Ok al /\ length al = n /\
  forall i, (i < n)%nat -> length (nth i al []) = n /\ forall j, (j < n)%nat -> entry i j (nth j (nth i al []) dgv).
Proof.
  pose proof Hv as (HLv & HFv). unfold align_velocities.
  rewrite (@consistent_grid_all g).
  2:{ rewrite map_length. lia. }
  2:{ intros u Hu. apply in_map_iff in Hu. destruct Hu as (x & <- & Hx). rewrite Forall_forall in HFv. apply HFv; auto. }
  cbn [bind]. fold n.
  destruct (@mapM_seq (list gvar) (fun i => mapM (fun j => let* vi := getM v i in
                                let* oi := getM (map (fun u => cv_offsets (goff (garray u))) v) i in
                                let* oij := getM oi j in linear_interp vi oij) (seq 0 n))
    (fun i row => length row = n /\ forall j, (j < n)%nat -> entry i j (nth j row dgv)) n) as (al & E & HL & Hal).
  { intros i Hi. rewrite (@getM_nth _ v i dgv) by (fold n in HLv; lia). cbn [bind].
    rewrite (@getM_nth _ (map _ v) i (cv_offsets (goff (garray dgv)))) by (rewrite map_length; fold n in HLv; lia).
    rewrite (map_nth (fun u => cv_offsets (goff (garray u)))). cbn [bind].
    destruct (periodic_vec_nth Hv Hi) as (Hp & Hpg). pose proof (pf_off Hp) as Po. rewrite Hpg in Po. fold n in Po.
    destruct (@mapM_seq gvar (fun j => let* oij := getM (cv_offsets (goff (garray (nth i v dgv)))) j in linear_interp (nth i v dgv) oij) (entry i) n) as (row & Er & HLr & Hr).
    { intros j Hj. rewrite (@getM_nth _ _ j []) by (rewrite cv_length; lia). cbn [bind].
      destruct (@lin_prep i j (nth j (cv_offsets (goff (garray (nth i v dgv)))) []) Hi Hj) as (w & E & Eb & P).
      { apply cv_nth. lia. }
      exists w. split; [exact E|]. split; auto. }
    exists row. split; [exact Er|]. split; [exact HLr|]. intros j Hj. apply Hr; auto. }
  exists al. split; [exact E|]. split; [exact HL|]. intros i Hi. apply Hal; auto.
Qed.

Definition fentry i j (w : gvar) : Prop := pvar g (t i j) (fun ix => A i j ix * A j i ix)%R w.
Lemma flux_prep al : length al = n ->
  (forall i, (i < n)%nat -> length (nth i al []) = n /\ forall j, (j < n)%nat -> entry i j (nth j (nth i al []) dgv)) ->
  exists fl, velocities_to_flux al = Ok fl /\ length fl = n /\
    forall i, (i < n)%nat -> length (nth i fl []) = n /\ forall j, (j < n)%nat -> fentry i j (nth j (nth i fl []) dgv).
Proof.
  intros HL Hal. unfold velocities_to_flux. rewrite HL. pose proof (periodic_vec_wfg Hd Hv) as Hw. pose proof Hv as (HLv & _).
  assert (Hgen : forall k, (k <= n)%nat -> exists fl, foldM (fun flux i => let* row := mapM (flux_entry al flux i) (seq 0 n) in Ok (flux ++ [row])) [] (seq 0 k) = Ok fl /\
     length fl = k /\ forall i, (i < k)%nat -> length (nth i fl []) = n /\ forall j, (j < n)%nat -> fentry i j (nth j (nth i fl []) dgv)).
  { induction k as [|k IH]; intros Hk.
    - exists []. split; [reflexivity|]. split; [reflexivity|]. intros i Hi; lia.
    - destruct IH as (fl & E & HLf & Hfl); [lia|]. rewrite seq_S, foldM_app, E. cbn [bind foldM Nat.add].
      destruct (@mapM_seq gvar (flux_entry al fl k) (fentry k) n) as (row & Er & HLr & Hr).
      { intros j Hj. unfold flux_entry. destruct (Nat.leb_spec k j) as [Hkj|Hkj].
        - destruct (Hal k Hk) as (L1 & H1). destruct (Hal j Hj) as (L2 & H2).
          destruct (H1 j Hj) as (B1 & P1). destruct (H2 k Hk) as (B2 & P2).
          rewrite (@getM_nth _ al k []) by lia. cbn [bind]. rewrite (@getM_nth _ (nth k al []) j dgv) by lia. cbn [bind].
          rewrite (@getM_nth _ al j []) by lia. cbn [bind]. rewrite (@getM_nth _ (nth j al []) k dgv) by lia. cbn [bind].
          destruct (@flux_bc_ok g (nth k (nth j al []) dgv) (nth j (nth k al []) dgv) j) as (b & Eb & Pb).
          { destruct P2 as (_ & P2). exact P2. }
          { rewrite B2. unfold homogeneous_vec in Hh. rewrite Forall_forall in Hh. apply Hh. apply nth_In. fold n in HLv. lia. }
          { destruct P1 as ((G1 & _) & _). rewrite G1. reflexivity. }
          rewrite Eb. cbn [bind].
          destruct P1 as (P1 & _). destruct P2 as (P2 & _).
          destruct (@prep_op2 Rmult g (t k j) (A k j) (A j k) (garray (nth j (nth k al []) dgv)) (garray (nth k (nth j al []) dgv))) as (p & Ep & Pp).
          { exact P1. } { eapply prep_off; [apply t_sym | exact P2]. }
          unfold ga_mul. rewrite Ep. cbn [bind].
          destruct (@impose_prep g (t k j) (fun ix => A k j ix * A j k ix)%R b p Hw (t_len k j) Pb Pp) as (w & Ew & Pw).
          exists (mkgv w b). split; [exact Ew|]. split; auto.
        - destruct (Hfl j Hkj) as (L1 & H1).
          rewrite (@getM_nth _ fl j []) by lia. cbn [bind]. rewrite (@getM_nth _ (nth j fl []) k dgv) by lia.
          eexists. split; [reflexivity|]. destruct (H1 k Hk) as (P & Pb). split; [|exact Pb].
          eapply prep_off; [apply t_sym|]. eapply prep_ext; [|exact P]. intros ix _. apply Rmult_comm. }
      rewrite Er. cbn [bind]. exists (fl ++ [row]). split; [reflexivity|]. split; [rewrite app_length; simpl; lia|].
      intros i Hi. destruct (Nat.eq_dec i k) as [->|Hne].
      + rewrite app_nth2 by lia. rewrite HLf, Nat.sub_diag. cbn [nth]. split; [exact HLr|]. intros j Hj. apply Hr; auto.
      + rewrite app_nth1 by lia. apply Hfl. lia. }
  apply Hgen. lia.
Qed.

Lemma convect_prep : exists l, convect_linear v = Ok l /\ length l = n /\
  forall i, (i < n)%nat -> prep g (offs i (1 # 2) o) (fun ix => - outflow g (fun j jx => A i j jx * A j i jx) ix)%R (nth i l dga).
Proof.
  unfold convect_linear. destruct align_prep as (al & Eal & HLal & Hal). rewrite Eal. cbn [bind].
  destruct (@flux_prep al HLal Hal) as (fl & Efl & HLfl & Hfl). rewrite Efl. cbn [bind].
  assert (Hl : fl = map (fun i => nth i fl []) (seq 0 n)).
  { apply nth_ext with (d := []) (d' := nth 0 fl []); [rewrite map_length, seq_length; auto|]. intros k Hk. rewrite nth_map_seq by lia. reflexivity. }
  destruct (@mapM_seq garr (fun i => let* d := divergence (nth i fl []) in ga_neg d)
    (fun i w => prep g (offs i (1 # 2) o) (fun ix => - outflow g (fun j jx => A i j jx * A j i jx) ix)%R w) n) as (l & El & HLl & Hlp).
  { intros i Hi. destruct (Hfl i Hi) as (L1 & H1).
    destruct (@div_prep g (offs i (1 # 2) o) (fun j => t i j) (fun j ix => A i j ix * A j i ix)%R (nth i fl [])) as (d & Ed & Pd); auto.
    { apply (periodic_vec_wfg Hd Hv). }
    { split; auto. }
    { intros j Hj. apply periodic_mult; apply A_per; auto. }
    { intros j Hj. split; [apply t_len|]. unfold t. apply offs_half_back. }
    rewrite Ed. cbn [bind]. apply prep_neg. exact Pd. }
  exists l. split.
  - rewrite Hl. rewrite <- El. clear. generalize (seq 0 n). induction l; simpl; [reflexivity|]. rewrite IHl. reflexivity.
  - split; [exact HLl|]. intros i Hi. apply Hlp; auto.
Qed.

Lemma component_face_velocity i j ix : (i < n)%nat -> (j < n)%nat -> length ix = n -> face_velocity (nth i v dgv) v j ix = A j i ix.
Proof.
  intros Hi Hj Hix. destruct (periodic_vec_nth Hv Hi) as (Hp & Hpg). destruct (periodic_vec_nth Hv Hj) as (Hpj & Hpgj).
  pose proof (pf_off Hpj) as Po. rewrite Hpgj in Po.
  rewrite face_velocity_nth by (destruct Hv as (HLv & _); fold n in HLv; lia). rewrite Hpg.
  rewrite (@lerp_half (gshape g) _ _ _ i) ; [| | rewrite Po; exact Hi | exact Hix].
  - fold n. replace (i <? n)%nat with true by (symmetry; apply Nat.ltb_lt; auto). unfold A, avg. rewrite !vval_nth by (destruct Hv as (HLv & _); fold n in HLv; lia). reflexivity.
  - eapply off_eq_trans; [apply off_eq_offs; [apply voff; auto | reflexivity]|].
    eapply off_eq_trans; [apply offs_comm|]. apply off_eq_offs; [apply off_eq_sym, voff; auto | reflexivity].
Qed.
Lemma component_value i j ix : (i < n)%nat -> (j < n)%nat -> length ix = n -> linear_value (nth i v dgv) j ix = A i j ix.
Proof.
  intros Hi Hj Hix. destruct (periodic_vec_nth Hv Hi) as (Hp & Hpg). pose proof (pf_off Hp) as Po. rewrite Hpg in Po.
  unfold linear_value. rewrite Hpg, (@lerp_half (gshape g) _ _ _ j) by (auto using off_eq_refl; rewrite Po; auto).
  fold n. replace (j <? n)%nat with true by (symmetry; apply Nat.ltb_lt; auto). unfold A, avg. rewrite !vval_nth by (destruct Hv as (HLv & _); fold n in HLv; lia). reflexivity.
Qed.
End Conv.

(* @prop C29 Convection of a staggered periodic velocity returns one tendency per component: for component i, minus the net outflow over the faces of its control volumes of (mean of v_i across the face) times (mean of v_j along axis i), and each component's tendency sums to zero over the grid. *)
Lemma convect_linear_spec_lem : forall g o v, (0 < gndim g)%nat -> periodic_vec g v -> homogeneous_vec v -> length o = gndim g -> face_aligned o v ->
  exists l, convect_linear v = Ok l /\ length l = gndim g /\
    forall i w, nth_error l i = Some w ->
      is_field w g (offs i (1 # 2) o) (fun ix => - outflow g (fun j jx =>
        (vval v i jx + vval v i (next j jx)) / 2 * ((vval v j jx + vval v j (next i jx)) / 2)) ix)%R /\
      total (gdata w) = 0%R.
Proof.
  intros g o v Hd Hv Hh Ho Hf. destruct (convect_prep Hd Hv Hh Ho Hf) as (l & E & HL & H).
  exists l. split; [exact E|]. split; [exact HL|]. intros i w Hw.
  assert (Hi : (i < gndim g)%nat) by (rewrite <- HL; apply nth_error_Some; congruence).
  specialize (H i Hi). rewrite (nth_error_nth l i dga Hw) in H. split; [exact H|].
  rewrite (total_prep H). apply outflow_total; [apply (periodic_vec_wfg Hd Hv)|].
  intros a Ha. apply periodic_mult; apply avg_periodic; eapply periodic_vval; eauto.
Qed.
(* @ex *)
Lemma convect_linear_spec_ex_lem : (0 < gndim ipg)%nat /\ periodic_vec ipg ipv /\ homogeneous_vec ipv /\ length (goff (garray ipc)) = gndim ipg /\ face_aligned (goff (garray ipc)) ipv.
Proof. split; [cbn; lia|]. split; [exact ipv_pv|]. split; [exact ipv_hom|]. split; [reflexivity | exact ipv_face]. Qed.

(* @prop C29 Convection of a staggered periodic velocity is linear advection applied to each component: same grid, offset and values. *)
Lemma convect_is_advection_lem : forall g o v dt, (0 < gndim g)%nat -> periodic_vec g v -> homogeneous_vec v -> length o = gndim g -> face_aligned o v ->
  exists l, convect_linear v = Ok l /\ length l = length v /\
    forall i u w, nth_error v i = Some u -> nth_error l i = Some w ->
      exists w', advect_linear u v dt = Ok w' /\ same_field w w'.
Proof.
  intros g o v dt Hd Hv Hh Ho Hf. destruct (convect_prep Hd Hv Hh Ho Hf) as (l & E & HL & H). pose proof Hv as (HLv & _).
  exists l. split; [exact E|]. split; [lia|]. intros i u w Hu Hw.
  assert (Hi : (i < gndim g)%nat) by (rewrite <- HL; apply nth_error_Some; congruence).
  specialize (H i Hi). rewrite (nth_error_nth l i dga Hw) in H.
  assert (Eu : nth i v dgv = u) by (apply nth_error_nth; auto).
  destruct (periodic_vec_nth Hv Hi) as (Hp & Hpg). rewrite Eu in Hp, Hpg.
  destruct (@adv_linear_prep u v dt Hp) as (w' & E' & (A & B & C & D)); [congruence | congruence | exact Hh |].
  exists w'. split; [exact E'|]. destruct H as (A1 & B1 & C1 & D1). rewrite Hpg in *. split; [congruence|]. split.
  { eapply off_eq_trans; [exact B1|]. eapply off_eq_trans; [apply off_eq_sym; apply (voff Hd Hv Ho Hf Hi)|]. rewrite Eu. apply off_eq_sym; exact B. }
  split; [congruence|]. intros ix Hix. rewrite C1 in Hix. rewrite D1, D by auto. apply (f_equal Ropp). apply outflow_ext; [apply inb_len; auto|].
  intros a jx Ha Hjx. rewrite <- Eu. rewrite (@component_value g o v) by auto. rewrite (@component_face_velocity g o v) by auto. reflexivity.
Qed.
(* @ex *)
Lemma convect_is_advection_ex_lem : (0 < gndim ipg)%nat /\ periodic_vec ipg ipv /\ homogeneous_vec ipv /\ length (goff (garray ipc)) = gndim ipg /\ face_aligned (goff (garray ipc)) ipv.
Proof. split; [cbn; lia|]. split; [exact ipv_pv|]. split; [exact ipv_hom|]. split; [reflexivity | exact ipv_face]. Qed.

(** ** C55: quadratic invariants *)
Lemma nsum_mul_l d c f : (c * nsum d f)%R = nsum d (fun i => c * f i)%R.
Proof. symmetry. apply nsum_scal. Qed.

(** Summation by parts: sum of F times the net outflow of (mean of F) times W is half the sum of
    F squared times the net outflow of W. *)
Lemma energy_axis g ax F W : allpos (gshape g) -> periodic (gshape g) F -> periodic (gshape g) W ->
  asum (gshape g) (fun ix => F ix * bdF g ax (fun jx => avg ax F jx * W jx) ix)%R =
  (/ 2 * asum (gshape g) (fun ix => F ix * F ix * bdF g ax W ix))%R.
Proof.
  intros Hp HF HW.
  set (T := fun ix => (F ix * F (next ax ix) * W ix / hstep g ax)%R).
  assert (HT : periodic (gshape g) T).
  { intros ix Hix. unfold T. rewrite (HF ix Hix), (HW ix Hix). unfold next. pose proof (periodic_shift ax 1 HF ix Hix) as P. cbv beta in P. rewrite P. reflexivity. }
  rewrite <- asum_scal.
  rewrite asum_ext with (g := fun ix => (/ 2 * (F ix * F ix * bdF g ax W ix) + / 2 * (T ix - T (prev ax ix)))%R).
  - rewrite asum_plus. rewrite !asum_scal. rewrite (@asum_minus (gshape g) T (fun ix => T (prev ax ix))).
    unfold prev. rewrite (@asum_shift_periodic (gshape g) ax (-1) T) by auto. ring.
  - intros ix Hix. unfold T, bdF, avg, next, prev. rewrite shiftix_add. change (1 + -1) with 0. rewrite shiftix_0. unfold Rdiv. generalize (/ hstep g ax)%R. intros. field.
Qed.

Lemma energy_sum g F Ws : allpos (gshape g) -> periodic (gshape g) F -> (forall a, (a < gndim g)%nat -> periodic (gshape g) (Ws a)) ->
  asum (gshape g) (fun ix => F ix * - outflow g (fun a jx => avg a F jx * Ws a jx) ix)%R =
  (- (/ 2 * asum (gshape g) (fun ix => F ix * F ix * outflow g Ws ix)))%R.
Proof.
  intros Hp HF HW.
  rewrite asum_ext with (g := fun ix => (-1 * nsum (gndim g) (fun a => F ix * bdF g a (fun jx => avg a F jx * Ws a jx) ix))%R).
  2:{ intros ix _. unfold outflow. rewrite nsum_scal. unfold bdF, prev. ring. }
  rewrite asum_scal, asum_nsum.
  rewrite (@nsum_ext _ _ (fun a => / 2 * asum (gshape g) (fun ix => F ix * F ix * bdF g a (Ws a) ix))%R) by (intros a Ha; apply energy_axis; auto).
  rewrite nsum_scal. rewrite <- asum_nsum.
  rewrite (@asum_ext (gshape g) (fun ix => nsum (gndim g) (fun i => F ix * F ix * bdF g i (Ws i) ix))%R (fun ix => F ix * F ix * outflow g Ws ix)%R).
  - ring.
  - intros ix _. rewrite nsum_scal. reflexivity.
Qed.

(* @prop C55 The rate of change of half the sum of squares of a scalar under linear advection by a staggered periodic velocity is minus half the sum of (scalar squared) times (discrete divergence of the velocity): centred advection conserves the quadratic invariant exactly when the velocity is discretely divergence free. *)
Lemma linear_advection_energy_lem : forall c v dt w d, periodic_field c -> (0 < gndim (ggrid (garray c)))%nat ->
  periodic_vec (ggrid (garray c)) v -> homogeneous_vec v -> face_aligned (goff (garray c)) v ->
  advect_linear c v dt = Ok w -> divergence v = Ok d ->
  let s := gshape (ggrid (garray c)) in
  asum s (fun ix => get (gdata (garray c)) ix * get (gdata w) ix)%R =
  (- (asum s (fun ix => get (gdata (garray c)) ix * get (gdata (garray c)) ix * get (gdata d) ix) / 2))%R.
Proof.
  intros c v dt w d Hc Hd Hv Hh Hf E Ed s. pose proof (pf_wfg Hc) as Hw. pose proof (pf_per Hc) as Pc. pose proof Hc as ((_ & Hs & _) & _).
  destruct (adv_linear_prep dt Hc Hd Hv Hh) as (w' & E' & (_ & _ & _ & V)). rewrite E in E'. injection E' as <-.
  destruct (divergence_spec_lem Hd Hv (pf_off Hc) Hf) as (d' & Ed' & (_ & _ & _ & Vd)). rewrite Ed in Ed'. injection Ed' as <-.
  rewrite (@asum_ext s _ (fun ix => pval (garray c) ix * - outflow (ggrid (garray c)) (fun a jx => avg a (pval (garray c)) jx * vval v a jx) ix)%R).
  - unfold s. rewrite energy_sum; [| apply Hw | exact Pc | intros a Ha; eapply periodic_vval; eauto].
    rewrite (@asum_ext (gshape (ggrid (garray c))) (fun ix => pval (garray c) ix * pval (garray c) ix * outflow (ggrid (garray c)) (vval v) ix)%R
      (fun ix => get (gdata (garray c)) ix * get (gdata (garray c)) ix * get (gdata d) ix)%R).
    + unfold Rdiv. ring.
    + intros ix Hix. rewrite pval_inb by (rewrite Hs; auto). rewrite (Vd ix Hix). reflexivity.
  - intros ix Hix. rewrite pval_inb by (rewrite Hs; auto). rewrite (V ix Hix). do 2 f_equal. apply outflow_ext; [apply inb_len; auto|].
    intros a jx Ha Hjx. rewrite (@face_velocity_aligned _ c v a jx Hv) by auto. f_equal.
    unfold linear_value. rewrite (@lerp_half (gshape (ggrid (garray c))) _ _ _ a) by (auto using off_eq_refl; rewrite (pf_off Hc); auto).
    replace (a <? gndim (ggrid (garray c)))%nat with true by (symmetry; apply Nat.ltb_lt; auto). reflexivity.
Qed.
(* @ex *)
Lemma linear_advection_energy_ex_lem :
  periodic_field ipc /\ periodic_vec (ggrid (garray ipc)) ipv /\ homogeneous_vec ipv /\ face_aligned (goff (garray ipc)) ipv /\
  (exists w, advect_linear ipc ipv 1 = Ok w) /\ exists d, divergence ipv = Ok d /\ forall ix, inb (gshape ipg) ix -> get (gdata d) ix = 0%R.
Proof.
  split; [exact ipc_pf|]. split; [exact ipv_pv|]. split; [exact ipv_hom|]. split; [exact ipv_face|]. split.
  - destruct (@advect_linear_flux_form_lem ipc ipv 1 ipc_pf ltac:(cbn; lia) ipv_pv ipv_hom) as (w & E & _). eauto.
  - apply advection_of_constant_ex_lem.
Qed.

(* @prop C55 Convection of a staggered periodic velocity whose discrete divergence (as computed by divergence) is zero everywhere does no work: for every component the sum of velocity times tendency over the grid is zero, so the discrete kinetic energy is conserved. *)
Lemma convection_conserves_energy_lem : forall g o v l d, (0 < gndim g)%nat -> periodic_vec g v -> homogeneous_vec v -> length o = gndim g -> face_aligned o v ->
  convect_linear v = Ok l -> divergence v = Ok d -> (forall ix, inb (gshape g) ix -> get (gdata d) ix = 0%R) ->
  forall i u w, nth_error v i = Some u -> nth_error l i = Some w ->
    asum (gshape g) (fun ix => get (gdata (garray u)) ix * get (gdata w) ix)%R = 0%R.
Proof.
  intros g o v l d Hd Hv Hh Ho Hf E Ed Hz i u w Hu Hw. pose proof (periodic_vec_wfg Hd Hv) as Hwf.
  destruct (convect_prep Hd Hv Hh Ho Hf) as (l' & E' & HL & H). rewrite E in E'. injection E' as <-.
  assert (Hi : (i < gndim g)%nat) by (rewrite <- HL; apply nth_error_Some; congruence).
  specialize (H i Hi). rewrite (nth_error_nth l i dga Hw) in H. destruct H as (_ & _ & _ & V).
  destruct (divergence_spec_lem Hd Hv Ho Hf) as (d' & Ed' & (_ & _ & _ & Vd)). rewrite Ed in Ed'. injection Ed' as <-.
  assert (Hall : forall ix, length ix = gndim g -> outflow g (vval v) ix = 0%R).
  { intros ix Hix. assert (Hpo : periodic (gshape g) (fun jx => outflow g (vval v) jx)).
    { apply periodic_nsum. intros a Ha. apply periodic_bdF. eapply periodic_vval; eauto. }
    rewrite <- (Hpo ix Hix). rewrite <- (Hz (wrap (gshape g) ix)) by (apply inb_wrap; auto; apply Hwf).
    rewrite (Vd (wrap (gshape g) ix)) by (apply inb_wrap; auto; apply Hwf). reflexivity. }
  pose proof (@periodic_vec_nth g v i Hv Hi) as (Hp & Hpg). assert (Eu : nth i v dgv = u) by (apply nth_error_nth; auto). rewrite Eu in Hp, Hpg.
  assert (Hui : forall ix, inb (gshape g) ix -> get (gdata (garray u)) ix = vval v i ix).
  { intros ix Hix. unfold vval. rewrite Hu, pval_inb; [reflexivity|]. destruct Hp as ((_ & Hs & _) & _). rewrite Hs, Hpg. exact Hix. }
  rewrite (@asum_ext (gshape g) _ (fun ix => vval v i ix * - outflow g (fun j jx => avg j (vval v i) jx * avg i (vval v j) jx) ix)%R) by (intros ix Hix; rewrite (V ix Hix), Hui by auto; reflexivity).
  rewrite (@energy_sum g (vval v i) (fun j => avg i (vval v j))); [| apply Hwf | eapply periodic_vval; eauto | intros a Ha; apply avg_periodic; eapply periodic_vval; eauto].
  rewrite (@asum_ext (gshape g) _ (fun ix => 0 * 1)%R).
  - rewrite asum_scal. ring.
  - intros ix Hix. replace (outflow g (fun j => avg i (vval v j)) ix) with ((outflow g (vval v) ix + outflow g (vval v) (next i ix)) / 2)%R.
    + rewrite !Hall by (unfold next; rewrite ?shiftix_length; apply inb_len; auto). field.
    + unfold outflow. unfold Rdiv at 1. rewrite <- nsum_plus, Rmult_comm, <- nsum_scal. apply nsum_ext. intros j Hj. unfold avg, next, prev.
      rewrite (shiftix_comm j i). unfold Rdiv. ring.
Qed.
(* @ex *)
Lemma convection_conserves_energy_ex_lem : (0 < gndim ipg)%nat /\ periodic_vec ipg ipv /\ homogeneous_vec ipv /\ length (goff (garray ipc)) = gndim ipg /\ face_aligned (goff (garray ipc)) ipv /\
  (exists l, convect_linear ipv = Ok l /\ length l = 2%nat) /\ exists d, divergence ipv = Ok d /\ forall ix, inb (gshape ipg) ix -> get (gdata d) ix = 0%R.
Proof.
  split; [cbn; lia|]. split; [exact ipv_pv|]. split; [exact ipv_hom|]. split; [reflexivity|]. split; [exact ipv_face|]. split.
  - destruct (@convect_linear_spec_lem ipg (goff (garray ipc)) ipv ltac:(cbn; lia) ipv_pv ipv_hom eq_refl ipv_face) as (l & E & HL & _). exists l. auto.
  - apply advection_of_constant_ex_lem.
Qed.
