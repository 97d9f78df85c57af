(** * C54: the two implementations of van Leer advection *)
From Coq Require Import Qreals.
From Coq Require Lqa.
From Verif Require Import Prelude NdArr Grids_model Spec Boundaries_model BoundariesPeriodic FD_model PRep FDProofs FDProps Interp_model InterpProofs InterpProps UpwindProps PressureProps Advection_model AdvectionProofs AdvectionProps VanLeerProofs.
Set Implicit Arguments.
Local Open Scope Z_scope.

(** ** pointwise algebra *)
Lemma phi_eq num D : (num * (rsign D + rsign num) * (D / (if Rlt_dec 0 (Rabs D) then Rabs D + Rabs num else 1)) =
  van_leer_limiter (safe_div num D) * D)%R.
Proof.
  destruct (Rtotal_order D 0) as [HD|[->|HD]].
  - assert (E : safe_div num D = (num / D)%R) by (unfold safe_div; destruct (Req_EM_T D 0); [lra | reflexivity]).
    rewrite E, (Rabs_left D HD). destruct (Rlt_dec 0 (- D)); [|lra].
    assert (ED : rsign D = (-1)%R) by (unfold rsign; destruct (Rlt_dec 0 D); [lra|]; destruct (Rlt_dec D 0); [reflexivity | lra]).
    assert (Hi : (/ D < 0)%R) by (apply Rinv_lt_0_compat; auto).
    destruct (Rlt_dec num 0) as [Hn|Hn].
    + assert (EN : rsign num = (-1)%R) by (unfold rsign; destruct (Rlt_dec 0 num); [lra|]; destruct (Rlt_dec num 0); [reflexivity | lra]).
      rewrite EN, ED, (Rabs_left num Hn). rewrite vl_pos by (unfold Rdiv; nra).
      assert (1 + num / D = (D + num) / D)%R as -> by (field; lra).
      field. repeat split; lra.
    + rewrite vl_nonpos by (unfold Rdiv; nra). rewrite ED.
      destruct (Req_dec num 0) as [->|Hn0]; [ring|].
      assert (EN : rsign num = 1%R) by (unfold rsign; destruct (Rlt_dec 0 num); [reflexivity | lra]). rewrite EN. ring.
  - rewrite Rabs_R0. destruct (Rlt_dec 0 0); [lra|]. unfold Rdiv. ring.
  - assert (E : safe_div num D = (num / D)%R) by (unfold safe_div; destruct (Req_EM_T D 0); [lra | reflexivity]).
    rewrite E, (Rabs_right D) by lra. destruct (Rlt_dec 0 D); [|lra].
    assert (ED : rsign D = 1%R) by (unfold rsign; destruct (Rlt_dec 0 D); [reflexivity | lra]).
    assert (Hi : (0 < / D)%R) by (apply Rinv_0_lt_compat; auto).
    destruct (Rlt_dec 0 num) as [Hn|Hn].
    + assert (EN : rsign num = 1%R) by (unfold rsign; destruct (Rlt_dec 0 num); [reflexivity | lra]).
      rewrite EN, ED, (Rabs_right num) by lra. rewrite vl_pos by (unfold Rdiv; nra).
      assert (1 + num / D = (D + num) / D)%R as -> by (field; lra).
      field. repeat split; lra.
    + rewrite vl_nonpos by (unfold Rdiv; nra). rewrite ED.
      destruct (Req_dec num 0) as [->|Hn0]; [ring|].
      assert (EN : rsign num = (-1)%R) by (unfold rsign; destruct (Rlt_dec 0 num); [lra|]; destruct (Rlt_dec num 0); [reflexivity | lra]).
      rewrite EN. ring.
Qed.

Lemma term_eq dt h W l a b n :
  ((if Rlt_dec 0 W then W * a else W * b) + van_leer_term dt h W l a b n =
   (let cn := dt * W / h in
    if Rlt_dec 0 W then a + / 2 * (1 - cn) * van_leer_limiter (safe_div (a - l) (b - a)) * (b - a)
    else b + / 2 * (1 + cn) * van_leer_limiter (safe_div (n - b) (b - a)) * (a - b)) * W)%R.
Proof.
  unfold van_leer_term. cbv zeta. destruct (Rlt_dec 0 W) as [H|H]; rewrite phi_eq.
  - rewrite (Rabs_right W) by lra. unfold Rdiv. ring.
  - rewrite (Rabs_left1 W) by lra. unfold Rdiv. ring.
Qed.

(** ** undoing the shift *)
Lemma shF_undo K n H ix : shF (fun a => - K a) n (shF K n H) ix = H ix.
Proof.
  revert ix. induction n as [|n IH]; intros ix; [reflexivity|]. cbn [shF].
  rewrite (shF_shift (fun a => - K a) n (shF K n H) n (K n)). rewrite IH, shiftix_add. replace (K n + - K n) with 0 by lia. rewrite shiftix_0. reflexivity.
Qed.
Lemma shF_outflow g K n G ix : (- outflow g (fun i => shF K n (G i)) ix = shF K n (fun jx => - outflow g G jx) ix)%R.
Proof.
  revert ix. induction n as [|n IH]; intros ix; [reflexivity|]. cbn [shF]. rewrite <- IH.
  unfold outflow. f_equal. apply nsum_ext. intros i Hi. cbn [shF]. unfold prev. rewrite (shiftix_comm n i). reflexivity.
Qed.

(** Every offset is in [1/2, 1), or the grid is one-dimensional and the offset is 0 or in [1/2, 1]. *)
Definition van_leer_offset (o : list Q) : Prop :=
  (forall q, In q o -> (1 # 2 <= q)%Q /\ (q < 1)%Q) \/
  (exists q, o = [q] /\ ((q == 0)%Q \/ ((1 # 2 <= q)%Q /\ (q <= 1)%Q))).

Lemma floor_unique q z : (inject_Z z <= q)%Q -> (q < inject_Z (z + 1))%Q -> Qfloor q = z.
Proof.
  intros H1 H2. pose proof (Qfloor_le q) as A. pose proof (Qlt_floor q) as B.
  assert (inject_Z z < inject_Z (Qfloor q + 1))%Q by (eapply Qle_lt_trans; eauto).
  assert (inject_Z (Qfloor q) < inject_Z (z + 1))%Q by (eapply Qle_lt_trans; eauto).
  rewrite <- Zlt_Qlt in *. lia.
Qed.
Lemma py_int_small q : (0 <= q)%Q -> (q < 1)%Q -> py_int q = 0.
Proof.
  intros H1 H2. unfold py_int. apply Z.quot_small. destruct q as [a b]. unfold Qle, Qlt in *. simpl in *. lia.
Qed.

Section Agree.
Variables (c : gvar) (v : list gvar) (dt : R).
Let g := ggrid (garray c).
Let o := goff (garray c).
Let F := pval (garray c).
Hypothesis (Hc : periodic_field c) (Hd : (0 < gndim g)%nat) (Hv : periodic_vec g v) (Hh : homogeneous_vec v) (Hoff : van_leer_offset o).
Let K (a : nat) : Z := - Qfloor (nth a o 0%Q).

Lemma vl_flux_agrees i ix : (i < gndim g)%nat -> length ix = gndim g ->
  vlFlux c v dt i ix = shF K (gndim g) (fun jx => limited_value van_leer_limiter c v dt i jx * face_velocity c v i jx)%R ix.
Proof.
  intros Hi Hix. pose proof (pf_off Hc) as Ho. fold g in Ho. fold o in Ho.
  assert (HLv : length v = gndim g) by (destruct Hv; auto).
  destruct Hoff as [H|(q & Eo & H)].
  - (* K = 0 *)
    assert (Hn : forall a, (a < gndim g)%nat -> (1 # 2 <= nth a o 0)%Q /\ (nth a o 0 < 1)%Q) by (intros a Ha; apply H, nth_In; lia).
    assert (HK : forall a, (a < gndim g)%nat -> K a = 0).
    { intros a Ha. unfold K. destruct (Hn a Ha) as (A & B). rewrite (@floor_unique (nth a o 0%Q) 0); [reflexivity | |].
      - change (inject_Z 0) with 0%Q. Lqa.lra.
      - change (inject_Z (0 + 1)) with 1%Q. Lqa.lra. }
    assert (Eo1 : off_eq (shO K (gndim g) o) o).
    { apply off_eq_intro; [apply shO_length|]. intros k Hk. rewrite shO_length in Hk. rewrite shO_nth by auto.
      destruct (Nat.ltb_spec k (gndim g)); [rewrite HK by lia; change (inject_Z 0) with 0%Q; ring | ring]. }
    assert (EU : forall jx, length jx = gndim g -> vlU c v i jx = face_velocity c v i jx).
    { intros jx Hj. rewrite face_velocity_nth by lia. unfold vlU. fold g. fold o. apply (@lerp_off_eq (gshape g)); [|exact Hj].
      apply off_eq_offs; [exact Eo1 | reflexivity]. }
    rewrite shF_0 by exact HK. unfold vlFlux. fold g. fold o. fold F. fold K. rewrite !shF_0 by exact HK. rewrite EU by exact Hix.
    assert (Em : py_int (1 - nth (gndim g - 1) o 0)%Q = 0).
    { destruct (Hn (gndim g - 1)%nat ltac:(lia)). apply py_int_small; Lqa.lra. }
    assert (Es : - Qfloor (nth i (shO K (gndim g) o) 0 + (1 # 2))%Q = -1).
    { destruct (Hn i Hi). rewrite (@floor_unique _ 1); [reflexivity | |]; rewrite (off_eq_nth i Eo1).
      - change (inject_Z 1) with 1%Q. Lqa.lra.
      - change (inject_Z (1 + 1)) with 2%Q. Lqa.lra. }
    cbv beta zeta. rewrite Em, Es, !shiftix_0.
    change (0 - -1) with 1. change (1 - -1) with 2. change (-1 - -1) with 0. change (-2 - -1) with (-1).
    rewrite term_eq. reflexivity.
  - (* one axis *)
    assert (Ha : i = 0%nat) by (rewrite Eo in Ho; simpl in Ho; lia). subst i.
    assert (Hg1 : gndim g = 1%nat) by (rewrite Eo in Ho; simpl in Ho; lia).
    assert (Hq : exists k m, Qfloor q = k /\ py_int (1 - q)%Q = m /\ - Qfloor (q - inject_Z k + (1 # 2))%Q = m + k - 1).
    { destruct H as [H|(H1 & H2)].
      - exists 0, 1. split; [|split].
        + rewrite (Qfloor_comp _ _ H). reflexivity.
        + apply py_int_inject. rewrite H. reflexivity.
        + assert (E : (q - inject_Z 0 + (1 # 2) == 1 # 2)%Q) by (rewrite H; reflexivity). rewrite (Qfloor_comp _ _ E). reflexivity.
      - destruct (Qlt_le_dec q 1) as [L|L].
        + exists 0, 0. split; [|split].
          * apply floor_unique; [change (inject_Z 0) with 0%Q; Lqa.lra | change (inject_Z (0 + 1)) with 1%Q; Lqa.lra].
          * apply py_int_small; Lqa.lra.
          * rewrite (@floor_unique _ 1); [reflexivity | |].
            -- change (inject_Z 1) with 1%Q. change (inject_Z 0) with 0%Q. Lqa.lra.
            -- change (inject_Z (1 + 1)) with 2%Q. change (inject_Z 0) with 0%Q. Lqa.lra.
        + assert (E : (q == 1)%Q) by Lqa.lra. exists 1, 0. split; [|split].
          * rewrite (Qfloor_comp _ _ E). reflexivity.
          * apply py_int_inject. rewrite E. reflexivity.
          * assert (E' : (q - inject_Z 1 + (1 # 2) == 1 # 2)%Q) by (rewrite E; reflexivity). rewrite (Qfloor_comp _ _ E'). reflexivity. }
    destruct Hq as (k & m & Hk & Hm & Hs).
    assert (EK : K 0%nat = - k) by (unfold K; rewrite Eo; cbn [nth]; rewrite Hk; reflexivity).
    assert (Eo1 : off_eq (shO K 1 o) (offs 0 (inject_Z (- k)) o)).
    { cbn [shO]. rewrite EK. apply off_eq_refl. }
    assert (EU : vlU c v 0 ix = face_velocity c v 0 (shiftix 0 (- k) ix)).
    { rewrite face_velocity_nth by lia. unfold vlU. fold g. fold o. fold K. rewrite Hg1. cbn [lerp].
      set (ou := goff (garray (nth 0 v dgv))). set (FU := pval (garray (nth 0 v dgv))).
      assert (E1 : (nth 0 (offs 0 (1 # 2) (shO K 1 o)) 0 - nth 0 ou 0 == (nth 0 (offs 0 (1 # 2) o) 0 - nth 0 ou 0) + inject_Z (- k))%Q).
      { rewrite Eo. cbn [shO offs upd nth]. rewrite EK. ring. }
      rewrite (@lerp_axis_comp _ _ _ _ _ E1). set (d := (nth 0 (offs 0 (1 # 2) o) 0 - nth 0 ou 0)%Q).
      unfold lerp_axis.
      assert (E2 : Qfloor (d + inject_Z (- k)) = Qfloor d - k).
      { apply floor_unique; rewrite ?inject_Z_plus, ?inject_Z_opp; unfold Z.sub; rewrite ?inject_Z_plus, ?inject_Z_opp.
        - pose proof (Qfloor_le d). Lqa.lra.
        - pose proof (Qlt_floor d) as B. rewrite inject_Z_plus in B. change (inject_Z 1) with 1%Q in *. Lqa.lra. }
      rewrite E2, !shiftix_add.
      assert (E3 : (d + inject_Z (- k) - inject_Z (Qfloor d - k) == d - inject_Z (Qfloor d))%Q).
      { unfold Z.sub. rewrite !inject_Z_plus, !inject_Z_opp. ring. }
      rewrite (Qeq_eqR _ _ E3). f_equal. f_equal. f_equal. f_equal. lia. }
    rewrite Hg1. unfold vlFlux. fold g. fold o. fold F. fold K. rewrite Hg1. cbn [shF Nat.sub]. rewrite EU, EK.
    assert (Es : - Qfloor (nth 0 (shO K 1 o) 0 + (1 # 2))%Q = m + k - 1).
    { rewrite <- Hs. f_equal. apply Qfloor_comp. rewrite (off_eq_nth 0 Eo1). rewrite Eo. cbn [offs upd nth]. rewrite inject_Z_opp. ring. }
    assert (Em : py_int (1 - nth 0 o 0)%Q = m) by (rewrite Eo; exact Hm).
    cbv beta zeta. rewrite Es, Em, !shiftix_add.
    replace (m + (0 - (m + k - 1))) with (1 - k) by lia. replace (m + (1 - (m + k - 1))) with (2 - k) by lia.
    replace (m + (-1 - (m + k - 1))) with (- k) by lia. replace (m + (-2 - (m + k - 1))) with (-1 - k) by lia.
    replace (- k + 1) with (1 - k) by lia.
    rewrite term_eq. unfold limited_value, next, prev. cbv zeta. fold F. fold g. rewrite !shiftix_add.
    replace (1 + - k) with (1 - k) by lia. replace (2 + - k) with (2 - k) by lia. replace (-1 + - k) with (-1 - k) by lia. reflexivity.
Qed.

Lemma van_leer_agrees_prep mode : exists w, advect_van_leer c v dt mode = Ok w /\
  prep g o (fun ix => - outflow g (fun i jx => limited_value van_leer_limiter c v dt i jx * face_velocity c v i jx) ix)%R w.
Proof.
  destruct (van_leer_prep dt mode Hc Hd Hv Hh) as (w & E & P). exists w. split; [exact E|].
  eapply prep_ext; [|exact P]. intros ix Hix. fold g. fold o. fold K.
  rewrite <- (@shF_undo K (gndim g) (fun ix => - outflow g (fun i jx => limited_value van_leer_limiter c v dt i jx * face_velocity c v i jx) ix)%R ix).
  apply (@shF_ext _ _ (gshape g)); [|apply inb_length; exact Hix].
  intros jx Hj. rewrite <- shF_outflow. f_equal. unfold outflow. apply nsum_ext. intros i Hi.
  rewrite !vl_flux_agrees by (auto; unfold prev; rewrite ?shiftix_length; auto). reflexivity.
Qed.
End Agree.

(* @prop C54 For a periodic scalar whose offset lies in [1/2, 1) on every axis (cell-centred scalars in particular), or on a one-dimensional grid at offset 0 or in [1/2, 1], advected by periodic velocities at any offsets, advect_van_leer with any padding mode returns the upwind flux corrected by the van Leer limiter in flux form: the same grid, offset and numbers as advect_van_leer_using_limiters. *)
Lemma van_leer_implementations_agree_lem : forall c v dt mode, periodic_field c -> (0 < gndim (ggrid (garray c)))%nat ->
  periodic_vec (ggrid (garray c)) v -> homogeneous_vec v -> van_leer_offset (goff (garray c)) ->
  exists w w', advect_van_leer c v dt mode = Ok w /\ advect_van_leer_using_limiters c v dt = Ok w' /\
    ggrid w = ggrid w' /\ off_eq (goff w) (goff w') /\ aeq (gdata w) (gdata w') /\
    is_field w (ggrid (garray c)) (goff (garray c))
    (fun ix => - outflow (ggrid (garray c)) (fun i jx =>
       let l := pval (garray c) (prev i jx) in let a := pval (garray c) jx in
       let b := pval (garray c) (next i jx) in let n := pval (garray c) (shiftix i 2 jx) in
       let ui := face_velocity c v i jx in let cn := (dt * ui / hstep (ggrid (garray c)) i)%R in
       (if Rlt_dec 0 ui then a + / 2 * (1 - cn) * van_leer_limiter (safe_div (a - l) (b - a)) * (b - a)
        else b + / 2 * (1 + cn) * van_leer_limiter (safe_div (n - b) (b - a)) * (a - b)) * ui) ix)%R.
Proof.
  intros c v dt mode Hc Hd Hv Hh Ho.
  destruct (van_leer_agrees_prep dt Hc Hd Hv Hh Ho mode) as (w & E & P).
  destruct (adv_limited_prep dt Hc Hd Hv Hh van_leer_limiter) as (w' & E' & P').
  exists w, w'. split; [exact E|]. split; [exact E'|]. split; [|split; [|split; [|exact P]]].
  - destruct P as (A & _), P' as (A' & _). congruence.
  - destruct P as (_ & A & _), P' as (_ & A' & _). eapply off_eq_trans; [exact A | apply off_eq_sym; exact A'].
  - destruct P as (_ & _ & A & B), P' as (_ & _ & A' & B'). split; [congruence|]. intros ix Hix. rewrite A in Hix. rewrite B, B' by exact Hix. reflexivity.
Qed.
(* @ex *)
Lemma van_leer_implementations_agree_ex_lem :
  periodic_field ipc /\ (0 < gndim (ggrid (garray ipc)))%nat /\ periodic_vec (ggrid (garray ipc)) ipv /\ homogeneous_vec ipv /\
  van_leer_offset (goff (garray ipc)) /\ van_leer_offset [1%Q] /\ van_leer_offset [0%Q].
Proof.
  split; [exact ipc_pf|]. split; [cbn; lia|]. split; [exact ipv_pv|]. split; [exact ipv_hom|]. split.
  - left. cbn. intros q [<-|[<-|[]]]; split; Lqa.lra.
  - split; right.
    + exists 1%Q. split; [reflexivity|]. right. split; Lqa.lra.
    + exists 0%Q. split; [reflexivity|]. left. reflexivity.
Qed.

(** A scalar on the faces of axis 0 (offset (1, 1/2)), zero in the column x = 0; velocity (0, 1). *)
Definition vlg : grid := mkgrid [2%nat; 4%nat] [1%R; 1%R] [(0%R, 2%R); (0%R, 4%R)].
Definition vlc : gvar := mkgv (mkga (mkarr [2%nat; 4%nat] (fun ix =>
  if (nth 0%nat ix 0 =? 0) then 0%R else if (nth 1%nat ix 0 =? 1) then 1%R else if (nth 1%nat ix 0 =? 2) then 2%R else 0%R)) [1%Q; (1 # 2)%Q] vlg) (periodic_bc 2).
Definition vlv : list gvar :=
  [mkgv (mkga (mkarr [2%nat; 4%nat] (fun _ => 0%R)) [1%Q; (1 # 2)%Q] vlg) (periodic_bc 2);
   mkgv (mkga (mkarr [2%nat; 4%nat] (fun _ => 1%R)) [(1 # 2)%Q; 1%Q] vlg) (periodic_bc 2)].
Lemma vlg_wf : wfg vlg.
Proof. repeat split; repeat constructor; (lia || lra). Qed.
Lemma vlc_pf : periodic_field vlc.
Proof. split; [split; [exact vlg_wf|]; split; reflexivity | reflexivity]. Qed.
Lemma vlv_pv : periodic_vec vlg vlv.
Proof. split; [reflexivity|]. repeat (apply Forall_cons; [split; [split; [split; [exact vlg_wf|]; split; reflexivity | reflexivity] | reflexivity]|]). constructor. Qed.
Lemma vlv_hom : homogeneous_vec vlv.
Proof. repeat constructor. Qed.
Lemma vlU0 ix : length ix = 2%nat -> vlU vlc vlv 0 ix = 0%R.
Proof.
  intros H. unfold vlU. pose proof (@lerp_bounds [2%nat; 4%nat] (gndim vlg) (goff (garray (nth 0 vlv dgv))) (offs 0 (1 # 2) (shO (fun a => - Qfloor (nth a (goff (garray vlc)) 0%Q)) (gndim vlg) (goff (garray vlc)))) (pval (garray (nth 0 vlv dgv))) 0 0) as B.
  specialize (B ltac:(intros jx _; cbn; lra) ix H). cbn [ggrid garray vlc] in *. lra.
Qed.
Lemma vlU1 ix : length ix = 2%nat -> vlU vlc vlv 1 ix = 1%R.
Proof.
  intros H. unfold vlU. pose proof (@lerp_bounds [2%nat; 4%nat] (gndim vlg) (goff (garray (nth 1 vlv dgv))) (offs 1 (1 # 2) (shO (fun a => - Qfloor (nth a (goff (garray vlc)) 0%Q)) (gndim vlg) (goff (garray vlc)))) (pval (garray (nth 1 vlv dgv))) 1 1) as B.
  specialize (B ltac:(intros jx _; cbn; lra) ix H). cbn [ggrid garray vlc] in *. lra.
Qed.

(* @prop C54 The agreement does not extend to scalars on the faces of a staggered grid: a periodic scalar at offset (1, 1/2) that vanishes in the whole column x = 0, carried by the velocity (0, 1), gets from advect_van_leer a non-zero tendency in that column (the limiter correction is computed from the neighbouring column), while advect_van_leer_using_limiters returns 0 there. *)
Lemma van_leer_staggered_refuted_lem : exists c v dt w w', periodic_field c /\ periodic_vec (ggrid (garray c)) v /\ homogeneous_vec v /\
  off_eq (goff (garray c)) [1%Q; (1 # 2)%Q] /\
  (forall y, get (gdata (garray c)) [0%Z; y] = 0%R) /\
  (forall ix, vval v 0 ix = 0%R) /\ (forall ix, vval v 1 ix = 1%R) /\
  advect_van_leer c v dt MIRROR = Ok w /\ advect_van_leer_using_limiters c v dt = Ok w' /\
  get (gdata w) [0%Z; 1%Z] = (- 1 / 4)%R /\ get (gdata w') [0%Z; 1%Z] = 0%R.
Proof.
  destruct (@van_leer_prep vlc vlv (1/2)%R MIRROR vlc_pf ltac:(cbn; lia) vlv_pv vlv_hom) as (w & E & (_ & _ & _ & V)).
  destruct (@adv_limited_prep vlc vlv (1/2)%R vlc_pf ltac:(cbn; lia) vlv_pv vlv_hom van_leer_limiter) as (w' & E' & (_ & _ & _ & V')).
  exists vlc, vlv, (1/2)%R, w, w'.
  split; [exact vlc_pf|]. split; [exact vlv_pv|]. split; [exact vlv_hom|]. split; [repeat constructor; reflexivity|].
  split; [reflexivity|]. split; [reflexivity|]. split; [reflexivity|]. split; [exact E|]. split; [exact E'|]. split.
  - rewrite V by (cbn; lia). clear.
    set (K := fun a : nat => - - Qfloor (nth a (goff (garray vlc)) 0%Q)).
    assert (K0 : K 0%nat = 1) by reflexivity. assert (K1 : K 1%nat = 0) by reflexivity.
    change (gndim (ggrid (garray vlc))) with 2%nat. cbn [shF]. fold (K 0%nat). fold (K 1%nat). rewrite K0, K1.
    change (shiftix 0 1 (shiftix 1 0 [0; 1])) with [1; 1]. unfold outflow. cbn [ggrid garray vlc]. change (gndim vlg) with 2%nat.
    unfold nsum. cbn [seq map lsum fold_right]. change (prev 0 [1; 1]) with [0; 1]. change (prev 1 [1; 1]) with [1; 0].
    assert (H0 : forall ix, length ix = 2%nat -> vlFlux vlc vlv (1/2)%R 0 ix = 0%R).
    { intros ix Hix. unfold vlFlux, van_leer_term. rewrite vlU0 by exact Hix. rewrite Rabs_R0. destruct (Rlt_dec 0 0); [lra|]. cbv zeta. ring. }
    rewrite !H0 by reflexivity.
    assert (H1 : vlFlux vlc vlv (1/2)%R 1 [1; 1] = (1 / 4)%R).
    { unfold vlFlux. rewrite vlU1 by reflexivity. cbv beta zeta.
      repeat match goal with |- context [pval (garray vlc) (shiftix ?a ?b ?c)] =>
        let x := eval vm_compute in (wrap [2%nat; 4%nat] (shiftix a b c)) in
        change (pval (garray vlc) (shiftix a b c)) with (get (gdata (garray vlc)) x) end.
      unfold van_leer_term. cbn [vlc garray gdata get nth Z.eqb Pos.eqb].
      cbv zeta. rewrite phi_eq. destruct (Rlt_dec 0 1); [|lra]. rewrite Rabs_R1.
      assert (Es : safe_div (1 - 0) (2 - 1) = 1%R) by (unfold safe_div; destruct (Req_EM_T _ _); [lra|]; lra).
      rewrite Es, vl_pos by lra.
      match goal with |- (1 * ?x + _ = _)%R => change x with 0%R end. unfold hstep. cbn. lra. }
    assert (H2 : vlFlux vlc vlv (1/2)%R 1 [1; 0] = 0%R).
    { unfold vlFlux. rewrite vlU1 by reflexivity. cbv beta zeta.
      repeat match goal with |- context [pval (garray vlc) (shiftix ?a ?b ?c)] =>
        let x := eval vm_compute in (wrap [2%nat; 4%nat] (shiftix a b c)) in
        change (pval (garray vlc) (shiftix a b c)) with (get (gdata (garray vlc)) x) end.
      unfold van_leer_term. cbn [vlc garray gdata get nth Z.eqb Pos.eqb].
      cbv zeta. rewrite phi_eq. destruct (Rlt_dec 0 1); [|lra].
      assert (Es : safe_div (0 - 0) (1 - 0) = 0%R) by (unfold safe_div; destruct (Req_EM_T _ _); [lra|]; lra).
      rewrite Es, vl_nonpos by lra.
      match goal with |- (1 * ?x + _ = _)%R => change x with 0%R end. lra. }
    rewrite H1, H2. unfold hstep. cbn. lra.
  - rewrite V' by (cbn; lia). clear. unfold outflow. cbn [ggrid garray vlc]. change (gndim vlg) with 2%nat.
    unfold nsum. cbn [seq map lsum fold_right]. change (prev 0 [0; 1]) with [-1; 1]. change (prev 1 [0; 1]) with [0; 0].
    assert (G0 : forall ix, length ix = 2%nat -> face_velocity vlc vlv 0 ix = 0%R).
    { intros ix H. rewrite face_velocity_nth by (cbn; lia).
      pose proof (@lerp_bounds [2%nat; 4%nat] (gndim vlg) (goff (garray (nth 0 vlv dgv))) (offs 0 (1 # 2) (goff (garray vlc))) (pval (garray (nth 0 vlv dgv))) 0 0) as B.
      specialize (B ltac:(intros jx _; cbn; lra) ix H). cbn [ggrid garray vlc] in *. lra. }
    assert (G1 : forall ix, length ix = 2%nat -> face_velocity vlc vlv 1 ix = 1%R).
    { intros ix H. rewrite face_velocity_nth by (cbn; lia).
      pose proof (@lerp_bounds [2%nat; 4%nat] (gndim vlg) (goff (garray (nth 1 vlv dgv))) (offs 1 (1 # 2) (goff (garray vlc))) (pval (garray (nth 1 vlv dgv))) 1 1) as B.
      specialize (B ltac:(intros jx _; cbn; lra) ix H). cbn [ggrid garray vlc] in *. lra. }
    rewrite !G0, !G1 by reflexivity.
    assert (HL : forall y, limited_value van_leer_limiter vlc vlv (1/2)%R 1 [0; y] = 0%R).
    { intros y. unfold limited_value. rewrite G1 by reflexivity. cbv zeta. destruct (Rlt_dec 0 1); [|lra].
      change (pval (garray vlc) (next 1 [0; y])) with 0%R. change (pval (garray vlc) [0; y]) with 0%R. ring. }
    rewrite !HL. unfold Rdiv. ring.
Qed.
