(** * C27, C28: conservation and consistency of the advection schemes *)
From Coq Require Import Qreals.
From Verif Require Import Prelude NdArr Grids_model Spec Boundaries_model BoundariesPeriodic FD_model PRep FDProofs FDProps WallBC WallBCProps ImposeProps Pressure_model PressureProps Interp_model InterpProofs InterpProps UpwindProps TvdProps Advection_model AdvectionProofs.
Set Implicit Arguments.
Local Open Scope Z_scope.

Lemma outflow_divF g Fl ix : outflow g Fl ix = divF g Fl ix.
Proof. reflexivity. Qed.

Lemma face_velocity_nth c v a : (a < length v)%nat ->
  face_velocity c v a = lerp (gndim (ggrid (garray c))) (goff (garray (nth a v dgv))) (offs a (1 # 2) (goff (garray c))) (pval (garray (nth a v dgv))).
Proof. intros H. unfold face_velocity. rewrite (nth_error_nth' v dgv) by auto. reflexivity. Qed.
Lemma lerp_off_eq s n o o' p F : off_eq o' p -> forall ix, length ix = length (s : list nat) -> lerp n o o' F ix = lerp n o p F ix.
Proof.
  intros H. induction n as [|n IH]; intros ix Hix; simpl; [reflexivity|].
  rewrite (@lerp_axis_comp n _ (nth n p 0 - nth n o 0)%Q) by (rewrite (off_eq_nth n H); reflexivity).
  apply (@lerp_axis_ext s); auto.
Qed.
Lemma lerp_same s n o o' F : off_eq o' o -> forall ix, length ix = length (s : list nat) -> lerp n o o' F ix = F ix.
Proof.
  intros H. induction n as [|n IH]; intros ix Hix; simpl; [reflexivity|].
  rewrite (@lerp_axis_comp n _ (inject_Z 0)).
  - rewrite lerp_axis_int, shiftix_0. apply IH; auto.
  - rewrite (off_eq_nth n H). change (inject_Z 0) with 0%Q. ring.
Qed.
Lemma face_velocity_periodic g c v a : periodic_vec g v -> ggrid (garray c) = g -> (a < gndim g)%nat -> periodic (gshape g) (face_velocity c v a).
Proof.
  intros Hv Hg Ha. destruct (periodic_vec_nth Hv Ha) as (Hp & Hpg). rewrite face_velocity_nth by (destruct Hv; lia).
  apply lerp_periodic. rewrite <- Hpg. apply pf_per. exact Hp.
Qed.
Lemma face_velocity_aligned g c v a ix : periodic_vec g v -> ggrid (garray c) = g -> face_aligned (goff (garray c)) v -> (a < gndim g)%nat -> length ix = gndim g ->
  face_velocity c v a ix = vval v a ix.
Proof.
  intros Hv Hg Hf Ha Hix. rewrite face_velocity_nth, vval_nth by (destruct Hv; lia). apply (@lerp_same (gshape g)); [|exact Hix].
  apply off_eq_sym. apply (Hf a). apply nth_error_nth'. destruct Hv; lia.
Qed.

(** ** The general scheme *)
Section Gen.
Variables (c : gvar) (v : list gvar) (ci : interp_fn) (dt : R) (C : nat -> list Z -> R).
Let g := ggrid (garray c).
Let o := goff (garray c).
Let U := face_velocity c v.
Let os i := nth i (cv_offsets o) [].
Hypothesis (Hc : periodic_field c) (Hd : (0 < gndim g)%nat) (Hv : periodic_vec g v) (Hh : homogeneous_vec v)
  (HC : forall i, (i < gndim g)%nat -> periodic (gshape g) (C i))
  (Hci : forall av, length av = gndim g ->
     (forall i, (i < gndim g)%nat -> pvar g (os i) (U i) (nth i av dgv)) ->
     forall i, (i < gndim g)%nat -> exists w, ci c (os i) av dt = Ok w /\ prep g (os i) (C i) (garray w)).

Lemma os_len i : (i < gndim g)%nat -> length (os i) = gndim g.
Proof. intros Hi. unfold os. rewrite cv_nth_length; unfold o; rewrite (pf_off Hc); auto. Qed.
Lemma os_eq i : (i < gndim g)%nat -> off_eq (os i) (offs i (1 # 2) o).
Proof. intros Hi. apply cv_nth. unfold o. rewrite (pf_off Hc). exact Hi. Qed.

Lemma general_prep : exists w, advect_general c v linear_fn ci dt = Ok w /\
  prep g o (fun ix => - outflow g (fun a jx => C a jx * U a jx) ix)%R w.
Proof.
  pose proof (pf_wfg Hc) as Hw. fold g in Hw. pose proof (pf_off Hc) as Ho. fold g in Ho. fold o in Ho.
  pose proof Hv as (HLv & _).
  unfold advect_general. rewrite (has_all_periodic_pf Hc). cbn [negb]. fold o.
  destruct (@mapM_combine gvar (list Q) gvar (fun ut => linear_fn (fst ut) (snd ut) v dt)
    (fun i w => gbc w = gbc (nth i v dgv) /\ pvar g (os i) (U i) w) v (cv_offsets o) dgv []) as (av & Eav & HLav & Hav).
  { rewrite cv_length. lia. }
  { intros i Hi. cbn [fst snd]. unfold linear_fn. fold (os i). assert (Hi' : (i < gndim g)%nat) by lia.
    destruct (periodic_vec_nth Hv Hi') as (Hp & Hpg).
    pose proof (pf_pvar Hp) as Pu. rewrite Hpg in Pu.
    pose proof (pf_per Hp) as Pp. rewrite Hpg in Pp. pose proof (pf_off Hp) as Po. rewrite Hpg in Po.
    destruct (@lin_all_prep g _ _ _ (os i) Hw Pp Po (os_len Hi') Pu) as (w & E & Eb & (P & Pb)).
    exists w. split; [exact E|]. split; [exact Eb|]. split; [|exact Pb]. eapply prep_ext; [|exact P]. intros ix Hix.
    unfold U. rewrite face_velocity_nth by lia. apply (@lerp_off_eq (gshape g)); [|apply inb_length; auto]. apply os_eq; auto. }
  rewrite Eav. cbn [bind].
  assert (Hl : cv_offsets o = map os (seq 0 (gndim g))).
  { apply nth_ext with (d := []) (d' := os 0%nat); [rewrite cv_length, map_length, seq_length; auto|].
    intros n Hn. rewrite cv_length in Hn. rewrite nth_map_seq by lia. reflexivity. }
  destruct (@mapM_seq gvar (fun i => ci c (os i) av dt) (fun i w => prep g (os i) (C i) (garray w)) (gndim g)) as (ac & Eac & HLac & Hac).
  { intros i Hi. apply Hci; auto; [lia|]. intros j Hj. apply (Hav j); lia. }
  assert (Em : mapM (fun t => ci c t av dt) (cv_offsets o) = Ok ac).
  { rewrite Hl. rewrite <- Eac. clear. generalize (seq 0 (gndim g)). induction l; simpl; [reflexivity|]. rewrite IHl. reflexivity. }
  rewrite Em. cbn [bind].
  apply (@aligned_prep g o os U C ac av Hw Hd); [auto | lia |].
  intros i Hi. destruct (Hav i dgv ltac:(lia)) as (Eb & Pv). split; [exact Pv|]. split.
  { rewrite Eb. unfold homogeneous_vec in Hh. rewrite Forall_forall in Hh. apply Hh. apply nth_In. lia. }
  split; [apply Hac; auto|]. split; [apply os_len; auto|]. split.
  { eapply off_eq_trans; [apply off_eq_offs; [apply os_eq; auto | reflexivity]|]. apply offs_half_back. }
  split; [apply face_velocity_periodic with (1 := Hv); auto | auto].
Qed.
End Gen.

(** Values of the scalar on the faces, for the three schemes. *)
Definition linear_value (c : gvar) (a : nat) : list Z -> R :=
  lerp (gndim (ggrid (garray c))) (goff (garray c)) (offs a (1 # 2) (goff (garray c))) (pval (garray c)).
Definition upwind_value (c : gvar) (v : list gvar) (a : nat) (ix : list Z) : R :=
  if Rlt_dec 0 (face_velocity c v a ix) then pval (garray c) ix else pval (garray c) (next a ix).
Definition limited_value (phi : R -> R) (c : gvar) (v : list gvar) (dt : R) (i : nat) (ix : list Z) : R :=
  let l := pval (garray c) (prev i ix) in let a := pval (garray c) ix in
  let b := pval (garray c) (next i ix) in let n := pval (garray c) (shiftix i 2 ix) in
  let ui := face_velocity c v i ix in let cn := (dt * ui / hstep (ggrid (garray c)) i)%R in
  if Rlt_dec 0 ui then (a + / 2 * (1 - cn) * phi (safe_div (a - l) (b - a)) * (b - a))%R
  else (b + / 2 * (1 + cn) * phi (safe_div (n - b) (b - a)) * (a - b))%R.

Lemma periodic_next s F a : periodic s F -> periodic s (fun ix => F (next a ix)).
Proof. intros H. apply periodic_shift. exact H. Qed.
Lemma periodic_if s F G H : periodic s F -> periodic s G -> periodic s H -> periodic s (fun ix => if Rlt_dec 0 (F ix) then G ix else H ix).
Proof. intros A B D ix Hix. rewrite (A ix Hix), (B ix Hix), (D ix Hix). reflexivity. Qed.

Section Schemes.
Variables (c : gvar) (v : list gvar) (dt : R).
Let g := ggrid (garray c).
Let o := goff (garray c).
Hypothesis (Hc : periodic_field c) (Hd : (0 < gndim g)%nat) (Hv : periodic_vec g v) (Hh : homogeneous_vec v).

Lemma adv_linear_prep : exists w, advect_linear c v dt = Ok w /\
  prep g o (fun ix => - outflow g (fun a jx => linear_value c a jx * face_velocity c v a jx) ix)%R w.
Proof.
  apply general_prep; auto.
  - intros i Hi. apply lerp_periodic, pf_per; auto.
  - intros av _ _ i Hi. unfold linear_fn.
    destruct (@lin_all_prep g _ _ c (nth i (cv_offsets o) []) (pf_wfg Hc) (pf_per Hc) (pf_off Hc)) as (w & E & _ & (P & _)).
    + apply os_len; auto.
    + apply pf_pvar; auto.
    + exists w. split; [exact E|]. eapply prep_ext; [|exact P]. intros ix Hix.
      unfold linear_value. apply (@lerp_off_eq (gshape g)); [|apply inb_length; auto]. apply os_eq; auto.
Qed.

Lemma adv_upwind_prep : exists w, advect_upwind c v dt = Ok w /\
  prep g o (fun ix => - outflow g (fun a jx => upwind_value c v a jx * face_velocity c v a jx) ix)%R w.
Proof.
  apply general_prep; auto.
  - intros i Hi. unfold upwind_value. apply periodic_if; [apply face_velocity_periodic with (1 := Hv); auto | apply pf_per; auto | apply periodic_next, pf_per; auto].
  - intros av HLav Hav i Hi. unfold upwind_fn. fold o. pose proof (os_eq Hc Hi) as He. fold o in He.
    set (oi := nth i (cv_offsets o) []) in *.
    destruct (Hav i Hi) as ((Gu & Bu & Su & Vu) & _). fold o in Bu. fold oi in Bu.
    assert (Hd1 : (nth i (goff (garray (nth i av dgv))) 0 - nth i (goff (garray c)) 0 == 1 # 2)%Q).
    { rewrite (off_eq_nth i Bu), (off_eq_nth i He). unfold offs. rewrite nth_upd_same by (unfold o; rewrite (pf_off Hc); auto). fold o. ring. }
    destruct (half_floor Hd1) as (Hf & Hz).
    destruct (@upwind_prep _ _ _ c i (nth i o 0 + (1 # 2))%Q oi av (nth i av dgv) (pf_wfg Hc) (pf_per Hc) Hi (pf_off Hc) (pf_pvar Hc) He) as (w & E & _ & (P & _)); auto.
    + intros E. fold o in E. Lqa.lra.
    + apply nth_error_nth'. lia.
    + split; auto.
    + exists w. split; [exact E|]. eapply prep_ext; [|exact P]. intros ix Hix. cbv beta. rewrite Hf, shiftix_0, (Vu ix Hix). reflexivity.
Qed.

Lemma adv_limited_prep phi : exists w, advect_general c v linear_fn (apply_tvd_limiter lax_wendroff phi) dt = Ok w /\
  prep g o (fun ix => - outflow g (fun a jx => limited_value phi c v dt a jx * face_velocity c v a jx) ix)%R w.
Proof.
  apply general_prep; auto.
  - intros i Hi. unfold limited_value. pose proof (pf_per Hc) as Pc. fold g in Pc.
    pose proof (@face_velocity_periodic g c v i Hv eq_refl Hi) as Pv.
    intros ix Hix. cbv beta zeta. fold g. fold g in Hix. pose proof (periodic_shift i 2 Pc ix Hix) as P2. cbv beta in P2. pose proof (periodic_shift i (-1) Pc ix Hix) as P1. cbv beta in P1.
    pose proof (periodic_shift i 1 Pc ix Hix) as P3. cbv beta in P3. unfold next, prev. rewrite (Pv ix Hix), (Pc ix Hix), P1, P2, P3. reflexivity.
  - intros av HLav Hav i Hi. fold o. pose proof (os_eq Hc Hi) as He. fold o in He. fold o in Hav.
    set (oi := nth i (cv_offsets o) []) in *.
    destruct (Hav i Hi) as ((Gu & Bu & Su & Vu) & _). fold oi in Bu.
    destruct (@tvd_prep _ _ _ c i oi av (nth i av dgv) phi dt (pf_wfg Hc) (pf_per Hc) Hi (pf_off Hc) (pf_pvar Hc) He) as (w & E & _ & (P & _)).
    + apply nth_error_nth'. lia.
    + split; auto.
    + exact Bu.
    + exists w. split; [exact E|]. eapply prep_ext; [|exact P]. intros ix Hix. unfold tvdF, limited_value. cbv zeta. rewrite (Vu ix Hix).
      fold g. unfold next, prev, Rdiv. destruct (Rlt_dec _ _); ring.
Qed.
End Schemes.

(** ** C27 *)
(* @prop C27 Linear advection of a periodic scalar by periodic velocities returns, at the scalar's offset, minus the net outflow of (scalar linearly interpolated to the face) times (velocity linearly interpolated to the face). *)
Lemma advect_linear_flux_form_lem : forall c v dt, periodic_field c -> (0 < gndim (ggrid (garray c)))%nat ->
  periodic_vec (ggrid (garray c)) v -> homogeneous_vec v ->
  exists w, advect_linear c v dt = Ok w /\ is_field w (ggrid (garray c)) (goff (garray c))
    (fun ix => - outflow (ggrid (garray c)) (fun a jx =>
       lerp (gndim (ggrid (garray c))) (goff (garray c)) (offs a (1 # 2) (goff (garray c))) (pval (garray c)) jx
       * face_velocity c v a jx) ix)%R.
Proof. intros c v dt Hc Hd Hv Hh. exact (adv_linear_prep dt Hc Hd Hv Hh). Qed.
Definition ipw : gvar := mkgv (mkga (mkarr [4%nat; 2%nat] (fun ix => if (nth 0%nat ix 0 =? 1) then 1%R else (1/4)%R)) [(1 # 2)%Q; 1%Q] ipg) (periodic_bc 2).
Definition ipv : list gvar := [ipu; ipw].
Lemma ipw_pf : periodic_field ipw.
Proof. split; [split; [exact ipg_wf|]; split; reflexivity | reflexivity]. Qed.
Lemma ipv_pv : periodic_vec ipg ipv.
Proof. split; [reflexivity|]. apply Forall_cons; [split; [exact ipu_pf | reflexivity]|]. apply Forall_cons; [split; [exact ipw_pf | reflexivity]|]. constructor. Qed.
Lemma ipv_hom : homogeneous_vec ipv.
Proof. repeat constructor. Qed.
Lemma ipv_face : face_aligned (goff (garray ipc)) ipv.
Proof. intros [|[|[|i]]] u H; simpl in H; try discriminate; injection H as <-; simpl; repeat constructor. Qed.
(* @ex *)
Lemma advect_linear_flux_form_ex_lem :
  periodic_field ipc /\ (0 < gndim (ggrid (garray ipc)))%nat /\ periodic_vec (ggrid (garray ipc)) ipv /\ homogeneous_vec ipv.
Proof. split; [exact ipc_pf|]. split; [cbn; lia|]. split; [exact ipv_pv | exact ipv_hom]. Qed.

(* @prop C27 Upwind advection of a periodic scalar by periodic velocities returns, at the scalar's offset, minus the net outflow of (value of the cell upstream of the face) times (velocity linearly interpolated to the face). *)
Lemma advect_upwind_flux_form_lem : forall c v dt, periodic_field c -> (0 < gndim (ggrid (garray c)))%nat ->
  periodic_vec (ggrid (garray c)) v -> homogeneous_vec v ->
  exists w, advect_upwind c v dt = Ok w /\ is_field w (ggrid (garray c)) (goff (garray c))
    (fun ix => - outflow (ggrid (garray c)) (fun a jx =>
       (if Rlt_dec 0 (face_velocity c v a jx) then pval (garray c) jx else pval (garray c) (next a jx))
       * face_velocity c v a jx) ix)%R.
Proof. intros c v dt Hc Hd Hv Hh. exact (adv_upwind_prep dt Hc Hd Hv Hh). Qed.
(* @ex *)
Lemma advect_upwind_flux_form_ex_lem :
  periodic_field ipc /\ (0 < gndim (ggrid (garray ipc)))%nat /\ periodic_vec (ggrid (garray ipc)) ipv /\ homogeneous_vec ipv /\
  exists w, advect_upwind ipc ipv 1 = Ok w /\ get (gdata w) [1; 0] = (- 9 / 2)%R.
Proof.
  split; [exact ipc_pf|]. split; [cbn; lia|]. split; [exact ipv_pv|]. split; [exact ipv_hom|].
  destruct (@advect_upwind_flux_form_lem ipc ipv 1 ipc_pf ltac:(cbn; lia) ipv_pv ipv_hom) as (w & E & (_ & _ & _ & D)).
  exists w. split; [exact E|]. rewrite D by (simpl; lia). unfold outflow.
  assert (F : forall a ix, (a < 2)%nat -> length ix = 2%nat -> face_velocity ipc ipv a ix = vval ipv a ix).
  { intros a ix Ha Hix. apply (@face_velocity_aligned ipg ipc ipv a ix ipv_pv eq_refl ipv_face Ha Hix). }
  cbn [ipc garray ggrid ipg gndim gshape length]. unfold nsum. cbn [seq map lsum fold_right].
  rewrite !F by (reflexivity || lia).
  unfold vval, ipv, pval, next, prev, shiftix, hstep. cbn.
  repeat (destruct (Rlt_dec _ _); [|exfalso; lra] || (destruct (Rlt_dec _ _); [exfalso; lra|])). cbn. lra.
Qed.

(* @prop C27 Flux-limited advection (any limiter phi over Lax-Wendroff; van_leer_using_limiters is the case phi = van Leer) returns, at the scalar's offset, minus the net outflow of (upwind value corrected by phi(r)/2 (1 - |C|) times the jump across the face) times (velocity linearly interpolated to the face). *)
Lemma advect_limited_flux_form_lem : forall phi c v dt, periodic_field c -> (0 < gndim (ggrid (garray c)))%nat ->
  periodic_vec (ggrid (garray c)) v -> homogeneous_vec v ->
  exists w, advect_general c v linear_fn (apply_tvd_limiter lax_wendroff phi) dt = Ok w /\
   is_field w (ggrid (garray c)) (goff (garray c))
    (fun ix => - outflow (ggrid (garray c)) (fun i jx =>
       let l := pval (garray c) (prev i jx) in let a := pval (garray c) jx in
       let b := pval (garray c) (next i jx) in let n := pval (garray c) (shiftix i 2 jx) in
       let ui := face_velocity c v i jx in let cn := (dt * ui / hstep (ggrid (garray c)) i)%R in
       (if Rlt_dec 0 ui then a + / 2 * (1 - cn) * phi (safe_div (a - l) (b - a)) * (b - a)
        else b + / 2 * (1 + cn) * phi (safe_div (n - b) (b - a)) * (a - b)) * ui) ix)%R.
Proof. intros phi c v dt Hc Hd Hv Hh. exact (adv_limited_prep dt Hc Hd Hv Hh phi). Qed.
(* @ex *)
Lemma advect_limited_flux_form_ex_lem :
  periodic_field ipc /\ (0 < gndim (ggrid (garray ipc)))%nat /\ periodic_vec (ggrid (garray ipc)) ipv /\ homogeneous_vec ipv /\
  forall c v dt, advect_van_leer_using_limiters c v dt = advect_general c v linear_fn (apply_tvd_limiter lax_wendroff van_leer_limiter) dt.
Proof. split; [exact ipc_pf|]. split; [cbn; lia|]. split; [exact ipv_pv|]. split; [exact ipv_hom | reflexivity]. Qed.

(* @prop C27 Whatever the interpolation methods (as long as what they return are periodic velocities, and scalars, filling the scalar's grid), whenever advect_general returns, the sum of the tendency over all cells is zero. *)
Lemma advect_general_conserves_lem : forall c v ui ci dt w,
  wfg (ggrid (garray c)) -> (0 < gndim (ggrid (garray c)))%nat ->
  (forall u o x, In u v -> ui u o v dt = Ok x -> periodic_field x /\ ggrid (garray x) = ggrid (garray c)) ->
  (forall o av x, ci c o av dt = Ok x -> wf_garr (garray x) /\ ggrid (garray x) = ggrid (garray c)) ->
  advect_general c v ui ci dt = Ok w -> total (gdata w) = 0%R.
Proof.
  intros c v ui ci dt w Hw Hd Hui Hci E. unfold advect_general in E. destruct (negb _); [discriminate|].
  apply bind_Ok_inv in E. destruct E as (av & Eav & E). apply bind_Ok_inv in E. destruct E as (ac & Eac & E).
  pose proof (mapM_length _ _ Eav) as Lav. pose proof (mapM_length _ _ Eac) as Lac.
  eapply aligned_conserves; [exact Hw | exact Hd | | | exact E].
  - intros i Hi. pose proof (mapM_inv _ _ Eav (k := i) (dgv, []) dgv ltac:(lia)) as F. eapply Hui; [|exact F].
    rewrite combine_length in Lav. assert (Hin : In (nth i (combine v (cv_offsets (goff (garray c)))) (dgv, [])) (combine v (cv_offsets (goff (garray c))))) by (apply nth_In; rewrite combine_length; lia).
    destruct (nth i _ _) as [u oo]. apply in_combine_l in Hin. exact Hin.
  - intros i Hi. pose proof (mapM_inv _ _ Eac (k := i) [] dgv ltac:(lia)) as F. eapply Hci; exact F.
Qed.
(* @ex *)
Lemma advect_general_conserves_ex_lem :
  wfg (ggrid (garray ipc)) /\ (0 < gndim (ggrid (garray ipc)))%nat /\
  (forall u o x, In u ipv -> linear_fn u o ipv 1%R = Ok x -> periodic_field x /\ ggrid (garray x) = ggrid (garray ipc)) /\
  exists w, advect_linear ipc ipv 1 = Ok w.
Proof.
  split; [exact ipg_wf|]. split; [cbn; lia|]. split.
  - intros u o x Hin E. unfold linear_fn in E.
    assert (Hu : periodic_field u /\ ggrid (garray u) = ipg).
    { destruct Hin as [<-|[<-|[]]]; [split; [exact ipu_pf | reflexivity] | split; [exact ipw_pf | reflexivity]]. }
    destruct Hu as (Hp & Hg). pose proof (pf_off Hp) as Ho.
    destruct (Nat.eq_dec (length o) (gndim (ggrid (garray u)))) as [HL|HL].
    + destruct (lin_all_prep o (pf_wfg Hp) (pf_per Hp) Ho HL (pf_pvar Hp)) as (y & E' & _ & ((A & B & C & D) & Pb)).
      rewrite E in E'. injection E' as <-. split; [|rewrite A, Hg; reflexivity]. split; [|rewrite A; exact Pb].
      split; [rewrite A, Hg; exact ipg_wf|]. split; [congruence|]. rewrite (off_eq_length B), A. exact HL.
    + rewrite linear_interpolation_bad_length_lem in E by congruence. discriminate.
  - destruct (@advect_linear_flux_form_lem ipc ipv 1 ipc_pf ltac:(cbn; lia) ipv_pv ipv_hom) as (w & E & _). eauto.
Qed.

Lemma outflow_total g Fl : allpos (gshape g) -> (forall a, (a < gndim g)%nat -> periodic (gshape g) (Fl a)) ->
  asum (gshape g) (fun ix => - outflow g Fl ix)%R = 0%R.
Proof.
  intros Hp Hf. rewrite asum_ext with (g := fun ix => (-1 * divF g Fl ix)%R) by (intros; rewrite outflow_divF; ring).
  rewrite asum_scal, sum_divF by auto. ring.
Qed.

(* @prop C27 Linear, upwind and flux-limited advection of a periodic scalar by periodic (homogeneous) velocities always return, and the sum of the returned tendency over all cells is zero. *)
Lemma advection_schemes_conserve_lem : forall c v dt, periodic_field c -> (0 < gndim (ggrid (garray c)))%nat ->
  periodic_vec (ggrid (garray c)) v -> homogeneous_vec v ->
  (exists w, advect_linear c v dt = Ok w /\ total (gdata w) = 0%R) /\
  (exists w, advect_upwind c v dt = Ok w /\ total (gdata w) = 0%R) /\
  (exists w, advect_van_leer_using_limiters c v dt = Ok w /\ total (gdata w) = 0%R).
Proof.
  intros c v dt Hc Hd Hv Hh.
  assert (Hu : forall u o x, In u v -> linear_fn u o v dt = Ok x -> periodic_field x /\ ggrid (garray x) = ggrid (garray c)).
  { intros u o x Hin E. unfold linear_fn in E.
    destruct Hv as (_ & Hv). rewrite Forall_forall in Hv. destruct (Hv u Hin) as (Hp & Hg). pose proof (pf_off Hp) as Ho.
    destruct (Nat.eq_dec (length o) (gndim (ggrid (garray u)))) as [HL|HL].
    + destruct (lin_all_prep o (pf_wfg Hp) (pf_per Hp) Ho HL (pf_pvar Hp)) as (y & E' & _ & ((A & B & C & D) & Pb)).
      rewrite E in E'. injection E' as <-. split; [|congruence]. split; [|rewrite A; exact Pb].
      split; [rewrite A; apply pf_wfg; auto|]. split; [congruence|]. rewrite (off_eq_length B), A. exact HL.
    + rewrite linear_interpolation_bad_length_lem in E by congruence. discriminate. }
  pose proof (pf_wfg Hc) as Hw. pose proof (pf_per Hc) as Pc.
  pose proof (fun a (Ha : (a < gndim (ggrid (garray c)))%nat) => @face_velocity_periodic _ c v a Hv eq_refl Ha) as Pv.
  split; [|split].
  - destruct (adv_linear_prep dt Hc Hd Hv Hh) as (w & E & P). exists w. split; [exact E|]. rewrite (total_prep P). apply outflow_total; [apply Hw|].
    intros a Ha. apply periodic_mult; [apply lerp_periodic; auto | auto].
  - destruct (adv_upwind_prep dt Hc Hd Hv Hh) as (w & E & P). exists w. split; [exact E|]. rewrite (total_prep P). apply outflow_total; [apply Hw|].
    intros a Ha. apply periodic_mult; [|auto]. apply periodic_if; auto. apply periodic_next; auto.
  - destruct (adv_limited_prep dt Hc Hd Hv Hh van_leer_limiter) as (w & E & P). exists w. split; [exact E|]. rewrite (total_prep P). apply outflow_total; [apply Hw|].
    intros a Ha. apply periodic_mult; [|auto]. intros ix Hix. unfold limited_value. cbv zeta.
    pose proof (periodic_shift a 2 Pc ix Hix) as P2. cbv beta in P2. pose proof (periodic_shift a (-1) Pc ix Hix) as P1. cbv beta in P1.
    pose proof (periodic_shift a 1 Pc ix Hix) as P3. cbv beta in P3. unfold next, prev. rewrite (Pv a Ha ix Hix), (Pc ix Hix), P1, P2, P3. reflexivity.
Qed.
(* @ex *)
Lemma advection_schemes_conserve_ex_lem :
  periodic_field ipc /\ (0 < gndim (ggrid (garray ipc)))%nat /\ periodic_vec (ggrid (garray ipc)) ipv /\ homogeneous_vec ipv.
Proof. split; [exact ipc_pf|]. split; [cbn; lia|]. split; [exact ipv_pv | exact ipv_hom]. Qed.

(* @prop C27 advect_general (hence every scheme built on it) raises NotImplementedError for a scalar with a lower side that is not periodic. *)
Lemma advect_general_unsupported_lem : forall c v ui ci dt a,
  (a < gndim (ggrid (garray c)))%nat -> ~ lower_periodic (gbc c) a -> length (btypes (gbc c)) = gndim (ggrid (garray c)) ->
  advect_general c v ui ci dt = Err ENotImpl.
Proof.
  intros c v ui ci dt a Ha Hn HL. unfold advect_general.
  replace (has_all_periodic [c]) with false; [reflexivity|]. symmetry. unfold has_all_periodic. cbn [forallb]. rewrite andb_true_r.
  apply not_true_is_false. intros E. rewrite forallb_forall in E. specialize (E a ltac:(apply in_seq; lia)).
  apply Hn. unfold lower_periodic, side_type. unfold is_periodic_bc, btype in E.
  rewrite (nth_error_nth' _ (BCOther, BCOther)) by lia. cbn [option_map]. f_equal.
  destruct (nth a (btypes (gbc c)) (BCOther, BCOther)) as [t1 t2]. cbn [fst] in *. destruct t1; (reflexivity || discriminate).
Qed.

Definition ipn : gvar := mkgv (garray ipc) (mkbc [(Periodic, Periodic); (Dirichlet, Neumann)] [(None, None); (Some 0%R, Some 0%R)] true).
(* @ex *)
Lemma advect_general_unsupported_ex_lem : (1 < gndim (ggrid (garray ipn)))%nat /\ ~ lower_periodic (gbc ipn) 1 /\ length (btypes (gbc ipn)) = gndim (ggrid (garray ipn)).
Proof. split; [cbn; lia|]. split; [discriminate | reflexivity]. Qed.

Lemma mk_gvar_gbc u b w : mk_gvar u b = Ok w -> gbc w = b.
Proof. unfold mk_gvar. destruct (_ =? _)%nat; [|discriminate]. intros E. injection E as <-. reflexivity. Qed.
Lemma linear_interp_gbc c o w : linear_interp c o = Ok w -> gbc w = gbc c.
Proof.
  unfold linear_interp. destruct (negb _); [discriminate|]. generalize (combine (seq 0 (length o)) o). intros l. revert c.
  induction l as [|[a q] l IH]; intros c E; simpl in E; [injection E as <-; reflexivity|].
  apply bind_Ok_inv in E. destruct E as (x & E1 & E). rewrite (IH _ E). clear IH E.
  unfold linear_along_axis in E1. destruct (Qeq_bool _ 0); [injection E1 as <-; reflexivity|].
  destruct (Qeq_bool _ _).
  - apply bind_Ok_inv in E1. destruct E1 as (s & _ & E1). eapply mk_gvar_gbc; eauto.
  - apply bind_Ok_inv in E1. destruct E1 as (s & _ & E1). apply bind_Ok_inv in E1. destruct E1 as (s' & _ & E1).
    apply bind_Ok_inv in E1. destruct E1 as (d & _ & E1). eapply mk_gvar_gbc; eauto.
Qed.
(* @prop C27 With linearly interpolated velocities, advection never returns a tendency when some velocity component has boundary conditions that are not homogeneous (the flux condition at the walls is then unknown). *)
Lemma advect_inhomogeneous_velocity_lem : forall c v ci dt i u w, nth_error v i = Some u -> (i < length (goff (garray c)))%nat ->
  bhom (gbc u) = false -> advect_general c v linear_fn ci dt <> Ok w.
Proof.
  intros c v ci dt i u w Hi Hl Hb E. unfold advect_general in E. destruct (negb _); [discriminate|].
  apply bind_Ok_inv in E. destruct E as (av & Eav & E). apply bind_Ok_inv in E. destruct E as (ac & Eac & E).
  assert (Hiv : (i < length v)%nat) by (apply nth_error_Some; congruence).
  pose proof (mapM_length _ _ Eav) as Lav. rewrite combine_length, cv_length in Lav.
  unfold advect_aligned in E. destruct (Nat.eqb_spec (length ac) (length av)) as [HL|]; [|discriminate]. cbn [negb] in E.
  apply bind_Ok_inv in E. destruct E as (fl & _ & E). apply bind_Ok_inv in E. destruct E as (bs & Eb & _).
  pose proof (mapM_inv _ _ Eav (k := i) (dgv, []) dgv ltac:(rewrite combine_length, cv_length; lia)) as F1.
  pose proof (mapM_inv _ _ Eb (k := i) (0%nat, (dgv, dgv)) (mkbc [] [] true) ltac:(rewrite enumerate_length, combine_length; lia)) as F2.
  rewrite enumerate_nth in F2 by (rewrite combine_length; lia). rewrite combine_nth in F2 by lia. cbn [fst snd] in F2.
  unfold advection_flux_bc in F2. unfold linear_fn in F1. apply linear_interp_gbc in F1.
  assert (F3 : bhom (gbc (nth i av dgv)) = false).
  { rewrite F1. pose proof (@nth_In _ i (combine v (cv_offsets (goff (garray c)))) (dgv, [])) as _.
    assert (Hc : forall (l : list gvar) (l' : list (list Q)) k, (k < length l)%nat -> (k < length l')%nat -> fst (nth k (combine l l') (dgv, [])) = nth k l dgv).
    { induction l as [|x l IH]; intros [|y l'] [|k] A B; simpl in *; try lia; auto. apply IH; lia. }
    rewrite Hc by (rewrite ?cv_length; auto). rewrite (nth_error_nth v i dgv Hi). exact Hb. }
  rewrite F3 in F2. discriminate.
Qed.
(* @ex *)
Lemma advect_inhomogeneous_velocity_ex_lem : exists u, nth_error [mkgv (garray ipu) (mkbc [(Periodic, Periodic); (Periodic, Periodic)] [(None, None); (None, None)] false); ipw] 0 = Some u /\
  (0 < length (goff (garray ipc)))%nat /\ bhom (gbc u) = false.
Proof. eexists. split; [reflexivity|]. split; [cbn; lia | reflexivity]. Qed.

(** ** C28 *)
Lemma const_outflow g k U ix : outflow g (fun a jx => k * U a jx)%R ix = (k * outflow g U ix)%R.
Proof. unfold outflow. rewrite <- nsum_scal. apply nsum_ext. intros i _. unfold Rdiv. ring. Qed.
Lemma outflow_ext g F G ix : length ix = gndim g -> (forall a jx, (a < gndim g)%nat -> length jx = gndim g -> F a jx = G a jx) -> outflow g F ix = outflow g G ix.
Proof. intros Hix H. unfold outflow. apply nsum_ext. intros a Ha. rewrite !H; auto. unfold prev. rewrite shiftix_length. auto. Qed.
Lemma inb_len g ix : inb (gshape g) ix -> length ix = gndim g.
Proof. apply inb_length. Qed.

(* @prop C28 Advecting a constant scalar by a staggered periodic velocity gives, with the linear, upwind and every flux-limited scheme, minus the constant times the discrete divergence of the velocity; it is zero everywhere when the library's divergence of the velocity is. *)
Lemma advection_of_constant_lem : forall c v dt k d, periodic_field c -> (0 < gndim (ggrid (garray c)))%nat ->
  periodic_vec (ggrid (garray c)) v -> homogeneous_vec v -> face_aligned (goff (garray c)) v ->
  constant_field c k -> divergence v = Ok d ->
  forall w, (advect_linear c v dt = Ok w \/ advect_upwind c v dt = Ok w \/
             exists phi, advect_general c v linear_fn (apply_tvd_limiter lax_wendroff phi) dt = Ok w) ->
  is_field w (ggrid (garray c)) (goff (garray c)) (fun ix => - (k * get (gdata d) ix))%R.
Proof.
  intros c v dt k d Hc Hd Hv Hh Hf Hk Ed w H.
  destruct (divergence_spec_lem Hd Hv (pf_off Hc) Hf) as (d' & Ed' & (_ & _ & _ & Vd)). rewrite Ed in Ed'. injection Ed' as <-.
  assert (Hpk : forall ix, length ix = gndim (ggrid (garray c)) -> pval (garray c) ix = k).
  { intros ix Hix. apply constant_pval; auto. }
  assert (Hs : forall a q ix, length ix = gndim (ggrid (garray c)) -> pval (garray c) (shiftix a q ix) = k).
  { intros a q ix Hix. apply Hpk. rewrite shiftix_length; auto. }
  assert (Hgoal : forall F, prep (ggrid (garray c)) (goff (garray c)) (fun ix => - outflow (ggrid (garray c)) (fun a jx => F a jx * face_velocity c v a jx) ix)%R w ->
    (forall a jx, (a < gndim (ggrid (garray c)))%nat -> length jx = gndim (ggrid (garray c)) -> F a jx = k) ->
    is_field w (ggrid (garray c)) (goff (garray c)) (fun ix => - (k * get (gdata d) ix))%R).
  { intros F P HF. eapply prep_ext; [|exact P]. intros ix Hix. cbv beta. apply (f_equal Ropp). rewrite (Vd ix Hix).
    rewrite (@outflow_ext _ _ (fun a jx => k * vval v a jx)%R); [apply const_outflow | apply inb_len; auto |].
    intros a jx Ha Hjx. rewrite HF, (@face_velocity_aligned _ c v a jx Hv) by auto. reflexivity. }
  destruct H as [H|[H|(phi & H)]].
  - destruct (adv_linear_prep dt Hc Hd Hv Hh) as (w' & E & P). rewrite H in E. injection E as <-. apply (Hgoal _ P).
    intros a jx Ha Hjx. unfold linear_value.
    assert (Hb : (k <= lerp (gndim (ggrid (garray c))) (goff (garray c)) (offs a (1 # 2) (goff (garray c))) (pval (garray c)) jx <= k)%R).
    { apply (@lerp_bounds (gshape (ggrid (garray c)))); [|exact Hjx]. intros ix Hix. rewrite Hpk by auto. lra. }
    lra.
  - destruct (adv_upwind_prep dt Hc Hd Hv Hh) as (w' & E & P). rewrite H in E. injection E as <-. apply (Hgoal _ P).
    intros a jx Ha Hjx. unfold upwind_value, next. rewrite Hs, Hpk by auto. destruct (Rlt_dec _ _); reflexivity.
  - destruct (adv_limited_prep dt Hc Hd Hv Hh phi) as (w' & E & P). rewrite H in E. injection E as <-. apply (Hgoal _ P).
    intros a jx Ha Hjx. unfold limited_value, next, prev. cbv zeta. rewrite !Hs, !Hpk by auto. destruct (Rlt_dec _ _); ring.
Qed.
Definition ipk : gvar := mkgv (mkga (mkarr [4%nat; 2%nat] (fun ix => 7%R)) [(1 # 2)%Q; (1 # 2)%Q] ipg) (periodic_bc 2).
Lemma ipk_pf : periodic_field ipk.
Proof. split; [split; [exact ipg_wf|]; split; reflexivity | reflexivity]. Qed.
(* @ex *)
Lemma advection_of_constant_ex_lem :
  periodic_field ipk /\ periodic_vec (ggrid (garray ipk)) ipv /\ homogeneous_vec ipv /\ face_aligned (goff (garray ipk)) ipv /\
  constant_field ipk 7 /\ exists d, divergence ipv = Ok d /\ forall ix, inb (gshape ipg) ix -> get (gdata d) ix = 0%R.
Proof.
  split; [exact ipk_pf|]. split; [exact ipv_pv|]. split; [exact ipv_hom|]. split; [exact ipv_face|]. split; [intros ix _; reflexivity|].
  destruct (@divergence_spec_lem ipg (goff (garray ipk)) ipv ltac:(cbn; lia) ipv_pv eq_refl ipv_face) as (d & E & (_ & _ & _ & V)).
  exists d. split; [exact E|]. intros ix Hix. rewrite V by auto.
  destruct ix as [|i [|j [|? ?]]]; simpl in Hix; try tauto. destruct Hix as (Hi & Hj & _).
  unfold nsum, ipg, gndim. cbn [gshape length seq map lsum fold_right]. unfold vval, ipv, prev, shiftix, hstep, pval. cbn -[Z.modulo Z.add].
  change (Z.of_nat 2) with 2. change (Z.of_nat 4) with 4. 
  rewrite (Z.mod_small i 4), (Z.mod_small j 2) by lia. lra.
Qed.
