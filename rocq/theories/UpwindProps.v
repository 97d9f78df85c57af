(** * C25-C26: upwind, Lax-Wendroff and flux-limited interpolation *)
From Coq Require Import Qreals.
From Verif Require Import Prelude NdArr Grids_model Spec Boundaries_model BoundariesPeriodic FD_model PRep FDProofs FDProps Interp_model InterpProofs InterpProps.
Set Implicit Arguments.
Local Open Scope Z_scope.

Lemma map_fst_filter {B} (P : nat * B -> bool) (l : list B) d k :
  map fst (filter P (combine (seq k (length l)) l)) = filter (fun j => P (j, nth (j - k) l d)) (seq k (length l)).
Proof.
  revert k; induction l as [|x l IH]; intros k; simpl; [reflexivity|]. rewrite Nat.sub_diag.
  assert (E : filter (fun j => P (j, match (j - k)%nat with O => x | S m => nth m l d end)) (seq (S k) (length l)) =
    filter (fun j => P (j, nth (j - S k) l d)) (seq (S k) (length l))).
  { apply filter_ext_in. intros j Hj. apply in_seq in Hj. replace (j - k)%nat with (S (j - S k)) by lia. reflexivity. }
  destruct (P (k, x)); simpl; rewrite IH, E; reflexivity.
Qed.
Lemma differing_axes_filter o1 o2 : length o1 = length o2 ->
  differing_axes o1 o2 = filter (fun j => negb (Qeq_bool (nth j o1 0%Q) (nth j o2 0%Q))) (seq 0 (length o1)).
Proof.
  intros HL. unfold differing_axes.
  replace (length o1) with (length (combine o1 o2)) by (rewrite combine_length; lia).
  rewrite (@map_fst_filter (Q * Q) _ _ (0%Q, 0%Q) 0). apply filter_ext. intros j. cbn [snd]. rewrite Nat.sub_0_r, combine_nth by auto. reflexivity.
Qed.
Lemma filter_seq_single P n k ax : (k <= ax < k + n)%nat -> P ax = true -> (forall j, j <> ax -> (k <= j < k + n)%nat -> P j = false) ->
  filter P (seq k n) = [ax].
Proof.
  revert k; induction n as [|n IH]; intros k Hr HP H; [lia|]. simpl.
  destruct (Nat.eq_dec k ax) as [->|Hne].
  - rewrite HP. f_equal.
    assert (Hg : forall l, (forall j, In j l -> P j = false) -> filter P l = []).
    { induction l as [|x l IHl]; intros Hl; simpl; [reflexivity|]. rewrite Hl by (left; auto). apply IHl. intros j Hj. apply Hl. right; auto. }
    apply Hg. intros j Hj. apply in_seq in Hj. apply H; lia.
  - rewrite (H k) by lia. apply IH; auto; try lia. intros j Hj Hr'. apply H; lia.
Qed.
Lemma differing_single o o' ax q : (ax < length o)%nat -> off_eq o' (upd ax q o) -> ~ (q == nth ax o 0)%Q ->
  differing_axes o o' = [ax] /\ off_eqb o o' = false.
Proof.
  intros Hax Ho' Hq. assert (HL : length o = length o') by (rewrite (off_eq_length Ho'), upd_length; reflexivity).
  split.
  - rewrite differing_axes_filter by auto. apply filter_seq_single; [lia | |].
    + apply negb_true_iff. apply not_true_is_false. intros E. apply Qeq_bool_iff in E. apply Hq.
      rewrite E, (off_eq_nth ax Ho'), nth_upd_same by auto. reflexivity.
    + intros j Hj Hr. apply negb_false_iff. apply Qeq_bool_iff. rewrite (off_eq_nth j Ho'), nth_upd_other by auto. reflexivity.
  - apply not_true_is_false. intros E. apply off_eqb_iff in E. apply Hq. rewrite (off_eq_nth ax E), (off_eq_nth ax Ho'), nth_upd_same by auto. reflexivity.
Qed.

Lemma where_pos_ok u a b s U A B : shp u = s -> shp a = s -> shp b = s ->
  (forall ix, inb s ix -> get u ix = U ix) -> (forall ix, inb s ix -> get a ix = A ix) -> (forall ix, inb s ix -> get b ix = B ix) ->
  exists d, where_pos u a b = Ok d /\ shp d = s /\ forall ix, inb s ix -> get d ix = if Rlt_dec 0 (U ix) then A ix else B ix.
Proof.
  intros Hu Ha Hb HU HA HB. unfold where_pos. rewrite Hu, Ha, Hb, shape_eqb_refl. cbn [andb].
  eexists; split; [reflexivity|]. split; [reflexivity|]. intros ix Hi. cbn. rewrite HU, HA, HB by auto. reflexivity.
Qed.
Lemma consistent_grid2 g a b : ggrid a = g -> ggrid b = g -> consistent_grid [a; b] = Ok g.
Proof. intros Ha Hb. unfold consistent_grid. simpl. rewrite Ha, Hb, grid_eqb_refl. reflexivity. Qed.
Lemma periodic_bc_per g : perbc g (periodic_bc (gndim g)).
Proof. reflexivity. Qed.

(** The flow variable used by a face: data filling grid [g]. *)
Definition on_grid (g : grid) (u : gvar) : Prop := ggrid (garray u) = g /\ shp (gdata (garray u)) = gshape g.

Section Up.
Variables (g : grid) (o : list Q) (F : list Z -> R) (c : gvar) (ax : nat) (q : Q) (o' : list Q) (v : list gvar) (u : gvar).
Hypothesis (Hw : wfg g) (HF : periodic (gshape g) F) (Hax : (ax < gndim g)%nat)
           (Ho : length o = gndim g) (Hc : pvar g o F c) (Ho' : off_eq o' (upd ax q o)) (Hq : ~ (q == nth ax o 0)%Q)
           (Hv : nth_error v ax = Some u) (Hu : on_grid g u).
Let d := (nth ax (goff (garray u)) 0 - nth ax (goff (garray c)) 0)%Q.

Lemma up_diff : differing_axes (goff (garray c)) o' = [ax] /\ off_eqb (goff (garray c)) o' = false.
Proof.
  destruct Hc as ((_ & B & _) & _). apply (@differing_single _ _ ax q).
  - rewrite (off_eq_length B), Ho. exact Hax.
  - eapply off_eq_trans; [exact Ho'|]. apply off_eq_upd; [apply off_eq_sym; exact B | reflexivity].
  - rewrite (off_eq_nth ax B). exact Hq.
Qed.

Lemma upwind_prep : (forall z, ~ (d == inject_Z z)%Q) ->
  exists w, upwind c o' v = Ok w /\ gbc w = periodic_bc (gndim g) /\
    pvar g o' (fun ix => if Rlt_dec 0 (get (gdata (garray u)) ix) then F (shiftix ax (Qfloor d) ix) else F (shiftix ax (Qfloor d + 1) ix)) w.
Proof.
  intros Hd. pose proof Hc as ((A & B & C & D) & Hb). destruct Hu as (Gu & Su). destruct up_diff as (E1 & E2).
  unfold upwind. rewrite E2, E1, Hv. fold d.
  assert (E3 : Qeq_bool (inject_Z (py_int d)) d = false).
  { apply not_true_is_false. intros E. apply Qeq_bool_iff in E. apply (Hd (py_int d)). symmetry; auto. }
  rewrite E3. pose proof (ceil_floor d E3) as Ec.
  destruct (pvar_shift (Qfloor d) Hw HF Hax Ho Hc) as (s1 & Es1 & (A1 & B1 & C1 & D1)). rewrite Es1. cbn [bind].
  destruct (pvar_shift (Qceiling d) Hw HF Hax Ho Hc) as (s2 & Es2 & (A2 & B2 & C2 & D2)). rewrite Es2. cbn [bind].
  destruct (@where_pos_ok (gdata (garray u)) (gdata s1) (gdata s2) (gshape g) (get (gdata (garray u))) _ _ Su C1 C2 (fun _ _ => eq_refl) D1 D2) as (dd & Ed & Sd & Vd).
  rewrite Ed. cbn [bind]. rewrite (consistent_grid2 _ _ A Gu). cbn [bind].
  rewrite (@mk_gvar_ok g) by (auto using periodic_bc_per). eexists; split; [reflexivity|]. split; [reflexivity|]. split; [|apply periodic_bc_per].
  split; [reflexivity|]. split; [apply off_eq_refl|]. split; [exact Sd|]. intros ix Hix. cbn [garray gdata]. rewrite Vd, Ec by auto. reflexivity.
Qed.

Lemma upwind_int z : (d == inject_Z z)%Q ->
  exists w, upwind c o' v = Ok w /\ gbc w = gbc c /\ pvar g o' (fun ix => F (shiftix ax z ix)) w.
Proof.
  intros Hd. pose proof Hc as ((A & B & C & D) & Hb). destruct Hu as (Gu & Su). destruct up_diff as (E1 & E2).
  unfold upwind. rewrite E2, E1, Hv. fold d.
  assert (E3 : Qeq_bool (inject_Z (py_int d)) d = true).
  { apply Qeq_bool_iff. rewrite (@py_int_inject z d Hd). symmetry; auto. }
  rewrite E3, (@py_int_inject z d Hd).
  destruct (pvar_shift z Hw HF Hax Ho Hc) as (s1 & Es1 & (A1 & B1 & C1 & D1)). rewrite Es1. cbn [bind].
  rewrite (consistent_grid2 _ _ A Gu). cbn [bind].
  rewrite (@mk_gvar_ok g) by auto. eexists; split; [reflexivity|]. split; [reflexivity|]. split; [|exact Hb].
  split; [reflexivity|]. split; [apply off_eq_refl|]. split; [exact C1|]. exact D1.
Qed.

Lemma lax_prep dt : (forall z, ~ (d == inject_Z z)%Q) ->
  exists w, lax_wendroff c o' v dt = Ok w /\ gbc w = periodic_bc (gndim g) /\
    pvar g o' (fun ix => let a := F (shiftix ax (Qfloor d) ix) in let b := F (shiftix ax (Qfloor d + 1) ix) in
        let C := (dt / hstep g ax * get (gdata (garray u)) ix)%R in
        if Rlt_dec 0 (get (gdata (garray u)) ix) then (a + / 2 * (1 - C) * (b - a))%R else (b - / 2 * (1 + C) * (b - a))%R) w.
Proof.
  intros Hd. pose proof Hc as ((A & B & C & D) & Hb). destruct Hu as (Gu & Su). destruct up_diff as (E1 & E2).
  unfold lax_wendroff. rewrite E2, E1, Hv. fold d.
  assert (E3 : Qeq_bool (inject_Z (py_int d)) d = false).
  { apply not_true_is_false. intros E. apply Qeq_bool_iff in E. apply (Hd (py_int d)). symmetry; auto. }
  pose proof (ceil_floor d E3) as Ec. rewrite (consistent_grid2 _ _ A Gu). cbn [bind].
  destruct (pvar_shift (Qfloor d) Hw HF Hax Ho Hc) as (s1 & Es1 & (A1 & B1 & C1 & D1)). rewrite Es1. cbn [bind].
  destruct (pvar_shift (Qceiling d) Hw HF Hax Ho Hc) as (s2 & Es2 & (A2 & B2 & C2 & D2)). rewrite Es2. cbn [bind].
  destruct (@raw2_ok Rminus _ _ _ _ _ C2 C1 D2 D1) as (df & Edf & Sdf & Vdf). rewrite Edf. cbn [bind].
  set (cou := amap (Rmult _) (gdata (garray u))).
  destruct (@raw2_ok Rmult (amap (fun x => / 2 * (1 - x))%R cou) df (gshape g) (fun ix => / 2 * (1 - dt / hstep g ax * get (gdata (garray u)) ix))%R _ Su Sdf (fun _ _ => eq_refl) Vdf) as (pc & Epc & Spc & Vpc).
  rewrite Epc. cbn [bind].
  destruct (@raw2_ok Rplus _ _ _ _ _ C1 Spc D1 Vpc) as (po & Epo & Spo & Vpo). rewrite Epo. cbn [bind].
  destruct (@raw2_ok Rmult (amap (fun x => / 2 * (1 + x))%R cou) df (gshape g) (fun ix => / 2 * (1 + dt / hstep g ax * get (gdata (garray u)) ix))%R _ Su Sdf (fun _ _ => eq_refl) Vdf) as (nc & Enc & Snc & Vnc).
  rewrite Enc. cbn [bind].
  destruct (@raw2_ok Rminus _ _ _ _ _ C2 Snc D2 Vnc) as (ne & Ene & Sne & Vne). rewrite Ene. cbn [bind].
  destruct (@where_pos_ok (gdata (garray u)) po ne (gshape g) (get (gdata (garray u))) _ _ Su Spo Sne (fun _ _ => eq_refl) Vpo Vne) as (dd & Ed & Sd & Vd).
  rewrite Ed. cbn [bind].
  rewrite (@mk_gvar_ok g) by (auto using periodic_bc_per). eexists; split; [reflexivity|]. split; [reflexivity|]. split; [|apply periodic_bc_per].
  split; [reflexivity|]. split; [apply off_eq_refl|]. split; [exact Sd|]. intros ix Hix. cbn [garray gdata]. rewrite Vd, Ec by auto. reflexivity.
Qed.
End Up.

Lemma half_floor d : (d == 1 # 2)%Q -> Qfloor d = 0 /\ forall z, ~ (d == inject_Z z)%Q.
Proof.
  intros H. split; [rewrite (Qfloor_comp _ _ H); reflexivity|]. intros z E. rewrite E in H. unfold Qeq, inject_Z in H. simpl in H. lia.
Qed.

(* @prop C25 Upwind interpolation of a periodic variable to the face half a cell ahead along one axis, driven by a velocity component located there, returns at the requested offset the value behind the face where the velocity is positive and the value ahead of it otherwise. *)
Lemma upwind_face_spec_lem : forall c ax o' v u, periodic_field c -> (ax < gndim (ggrid (garray c)))%nat ->
  off_eq o' (offs ax (1 # 2) (goff (garray c))) -> nth_error v ax = Some u ->
  wf_garr (garray u) -> ggrid (garray u) = ggrid (garray c) -> (nth ax (goff (garray u)) 0 == nth ax o' 0)%Q ->
  exists w, upwind c o' v = Ok w /\ perbc (ggrid (garray c)) (gbc w) /\
    is_field (garray w) (ggrid (garray c)) o'
      (fun ix => if Rlt_dec 0 (get (gdata (garray u)) ix) then get (gdata (garray c)) ix else pval (garray c) (next ax ix)).
Proof.
  intros c ax o' v u Hc Hax Ho' Hv Hu Hg Hou. pose proof (pf_off Hc) as Hlo.
  assert (Hd : (nth ax (goff (garray u)) 0 - nth ax (goff (garray c)) 0 == 1 # 2)%Q).
  { rewrite Hou, (off_eq_nth ax Ho'). unfold offs. rewrite nth_upd_same by lia. ring. }
  destruct (half_floor Hd) as (Hf & Hz).
  destruct (@upwind_prep _ _ _ c ax (nth ax (goff (garray c)) 0 + (1 # 2))%Q o' v u (pf_wfg Hc) (pf_per Hc) Hax Hlo (pf_pvar Hc) Ho') as (w & E & Eb & (P & Pb)); auto.
  - intros E. Lqa.lra.
  - split; [auto|]. destruct Hu as (_ & Hs & _). congruence.
  - exists w. split; [exact E|]. split; [exact Pb|]. eapply prep_ext; [|exact P]. intros ix Hix. rewrite Hf, shiftix_0.
    destruct (Rlt_dec _ _); [|reflexivity]. apply pval_inb. destruct Hc as ((_ & Hs & _) & _). rewrite Hs. exact Hix.
Qed.
Definition ipu : gvar := mkgv (mkga (mkarr [4%nat; 2%nat] (fun ix => if (nth 1%nat ix 0 =? 0) then (1/2)%R else (-1)%R)) [1%Q; (1 # 2)%Q] ipg) (periodic_bc 2).
Lemma ipu_pf : periodic_field ipu.
Proof. split; [split; [exact ipg_wf|]; split; reflexivity | reflexivity]. Qed.
(* @ex *)
Lemma upwind_face_spec_ex_lem :
  periodic_field ipc /\ off_eq [1%Q; (1 # 2)%Q] (offs 0 (1 # 2) (goff (garray ipc))) /\ nth_error [ipu; ipu] 0 = Some ipu /\
  wf_garr (garray ipu) /\
  exists w, upwind ipc [1%Q; (1 # 2)%Q] [ipu; ipu] = Ok w /\ get (gdata (garray w)) [1; 0] = 10%R /\ get (gdata (garray w)) [3; 1] = 1%R.
Proof.
  split; [exact ipc_pf|]. split; [repeat constructor; reflexivity|]. split; [reflexivity|]. split; [apply ipu_pf|].
  destruct (@upwind_face_spec_lem ipc 0 [1%Q; (1 # 2)%Q] [ipu; ipu] ipu) as (w & E & _ & (_ & _ & _ & V)); auto.
  - exact ipc_pf.
  - unfold gndim; simpl; lia.
  - repeat constructor; reflexivity.
  - apply ipu_pf.
  - reflexivity.
  - exists w. split; [exact E|]. split; rewrite V by (cbn; lia); cbn -[IZR]; destruct (Rlt_dec _ _); try lra; unfold pval; cbn; lra.
Qed.

(* @prop C25 In general upwind interpolation along one axis uses the two cells around the position of the velocity component: the lower one where the velocity is positive, the upper one otherwise; when the positions differ by whole cells it is exactly that shift. *)
Lemma upwind_spec_lem : forall c ax q o' v u, periodic_field c -> (ax < gndim (ggrid (garray c)))%nat ->
  off_eq o' (upd ax q (goff (garray c))) -> ~ (q == nth ax (goff (garray c)) 0)%Q -> nth_error v ax = Some u ->
  wf_garr (garray u) -> ggrid (garray u) = ggrid (garray c) ->
  let d := (nth ax (goff (garray u)) 0 - nth ax (goff (garray c)) 0)%Q in
  exists w, upwind c o' v = Ok w /\ perbc (ggrid (garray c)) (gbc w) /\
  (forall z, (d == inject_Z z)%Q -> is_field (garray w) (ggrid (garray c)) o' (fun ix => pval (garray c) (shiftix ax z ix))) /\
  ((forall z, ~ (d == inject_Z z)%Q) ->
     is_field (garray w) (ggrid (garray c)) o'
      (fun ix => if Rlt_dec 0 (get (gdata (garray u)) ix) then pval (garray c) (shiftix ax (Qfloor d) ix) else pval (garray c) (shiftix ax (Qfloor d + 1) ix))).
Proof.
  intros c ax q o' v u Hc Hax Ho' Hq Hv Hu Hg d. pose proof (pf_off Hc) as Hlo.
  assert (Hug : on_grid (ggrid (garray c)) u) by (split; [auto|]; destruct Hu as (_ & Hs & _); congruence).
  destruct (int_case d) as [Hi|Hi].
  - destruct (@upwind_int _ _ _ c ax q o' v u (pf_wfg Hc) (pf_per Hc) Hax Hlo (pf_pvar Hc) Ho' Hq Hv Hug (py_int d)) as (w & E & Eb & (P & Pb)); [symmetry; exact Hi|].
    exists w. split; [exact E|]. split; [exact Pb|]. split.
    + intros z Hz. rewrite (@py_int_inject z d Hz) in P. exact P.
    + intros Hn. exfalso. apply (Hn (py_int d)). symmetry; exact Hi.
  - assert (Hz : forall z, ~ (d == inject_Z z)%Q).
    { intros z E. rewrite (@py_int_inject z d E) in Hi. apply Qeq_bool_neq in Hi. apply Hi. symmetry; exact E. }
    destruct (@upwind_prep _ _ _ c ax q o' v u (pf_wfg Hc) (pf_per Hc) Hax Hlo (pf_pvar Hc) Ho' Hq Hv Hug Hz) as (w & E & Eb & (P & Pb)).
    exists w. split; [exact E|]. split; [exact Pb|]. split.
    + intros z Hzz. exfalso. apply (Hz z); auto.
    + intros _. exact P.
Qed.
(* @ex *)
Lemma upwind_spec_ex_lem :
  off_eq [0%Q; (1 # 2)%Q] (upd 0 0%Q (goff (garray ipc))) /\ ~ (0 == nth 0 (goff (garray ipc)) 0)%Q /\
  forall z, ~ (nth 0 (goff (garray ipu)) 0 - nth 0 (goff (garray ipc)) 0 == inject_Z z)%Q.
Proof.
  split; [repeat constructor|]. split; [cbn; discriminate|]. apply half_floor. reflexivity.
Qed.

(* @prop C25 Upwind and Lax-Wendroff interpolation to the variable's own offset return the variable itself. *)
Lemma upwind_identity_lem : forall c o' v dt, off_eq (goff (garray c)) o' -> upwind c o' v = Ok c /\ lax_wendroff c o' v dt = Ok c.
Proof. intros c o' v dt H. apply off_eqb_iff in H. unfold upwind, lax_wendroff. rewrite H. auto. Qed.
(* @ex *)
Lemma upwind_identity_ex_lem : off_eq (goff (garray ipc)) [(2 # 4)%Q; (1 # 2)%Q].
Proof. repeat constructor. Qed.

(* @prop C25 Upwind and Lax-Wendroff interpolation to an offset that differs on two or more axes raise InconsistentOffsetError. *)
Lemma upwind_two_axes_raises_lem : forall c o' v dt a b, length o' = length (goff (garray c)) -> a <> b ->
  (a < length o')%nat -> (b < length o')%nat ->
  ~ (nth a o' 0 == nth a (goff (garray c)) 0)%Q -> ~ (nth b o' 0 == nth b (goff (garray c)) 0)%Q ->
  upwind c o' v = Err EOffset /\ lax_wendroff c o' v dt = Err EOffset.
Proof.
  intros c o' v dt a b HL Hab Ha Hb Na Nb. unfold upwind, lax_wendroff.
  replace (off_eqb (goff (garray c)) o') with false.
  2:{ symmetry. apply not_true_is_false. intros E. apply off_eqb_iff in E. apply Na. symmetry. apply (off_eq_nth a E). }
  rewrite differing_axes_filter by auto. set (P := fun j => _).
  assert (Hin : forall j, (j < length o')%nat -> ~ (nth j o' 0 == nth j (goff (garray c)) 0)%Q -> In j (filter P (seq 0 (length (goff (garray c)))))).
  { intros j Hj Hn. apply filter_In. split; [apply in_seq; lia|]. unfold P. apply negb_true_iff. apply not_true_is_false. intros E.
    apply Qeq_bool_iff in E. apply Hn. symmetry; exact E. }
  pose proof (Hin a Ha Na) as I1. pose proof (Hin b Hb Nb) as I2. destruct (filter _ _) as [|x [|y l]]; [destruct I1 | | auto].
  exfalso. destruct I1 as [->|[]]. destruct I2 as [->|[]]. apply Hab; reflexivity.
Qed.
(* @ex *)
Lemma upwind_two_axes_raises_ex_lem : ~ (nth 0 [1%Q; 1%Q] 0 == nth 0 (goff (garray ipc)) 0)%Q /\ ~ (nth 1 [1%Q; 1%Q] 0 == nth 1 (goff (garray ipc)) 0)%Q.
Proof. split; cbn; discriminate. Qed.

(** ** The limiter *)
Lemma vl_pos r : (0 < r)%R -> van_leer_limiter r = (2 * r / (1 + r))%R.
Proof.
  intros H. unfold van_leer_limiter, safe_div. destruct (Rlt_dec 0 r); [|lra]. destruct (Req_EM_T (1 + r) 0); [lra | reflexivity].
Qed.
Lemma vl_nonpos r : (r <= 0)%R -> van_leer_limiter r = 0%R.
Proof. intros H. unfold van_leer_limiter. destruct (Rlt_dec 0 r); [lra | reflexivity]. Qed.

(* @prop C26 The Van Leer limiter is 0 for r <= 0, lies in [0, 2), is at most 2 r for r > 0, is symmetric (phi(r)/r = phi(1/r)), is monotone, and phi(1) = 1 (second order on smooth data). *)
Lemma van_leer_limiter_bounds_lem : forall r,
  (0 <= van_leer_limiter r < 2)%R /\ ((r <= 0)%R -> van_leer_limiter r = 0%R) /\
  ((0 < r)%R -> (0 < van_leer_limiter r <= 2 * r)%R /\ (van_leer_limiter r / r = van_leer_limiter (1 / r))%R) /\
  van_leer_limiter 1 = 1%R /\ (forall s, (r <= s)%R -> (van_leer_limiter r <= van_leer_limiter s)%R).
Proof.
  assert (Hb : forall r, (0 < r)%R -> (0 < van_leer_limiter r < 2)%R /\ (van_leer_limiter r <= 2 * r)%R).
  { intros r H. rewrite vl_pos by auto.
    assert (Hi : (0 < / (1 + r))%R) by (apply Rinv_0_lt_compat; lra).
    assert (He : (2 * r / (1 + r) * (1 + r) = 2 * r)%R) by (field; lra). set (x := (2 * r / (1 + r))%R) in *.
    assert (0 < x)%R by (unfold x, Rdiv; apply Rmult_lt_0_compat; lra). split; nra. }
  intros r. split; [|split; [|split; [|split]]].
  - destruct (Rlt_dec 0 r) as [H|H]; [destruct (Hb r H); lra | rewrite vl_nonpos; lra].
  - apply vl_nonpos.
  - intros H. destruct (Hb r H). split; [lra|].
    assert (0 < 1 / r)%R by (unfold Rdiv; rewrite Rmult_1_l; apply Rinv_0_lt_compat; auto).
    rewrite !vl_pos by auto. field. lra.
  - rewrite vl_pos by lra. field.
  - intros s Hs. destruct (Rlt_dec 0 r) as [H|H].
    + rewrite !vl_pos by lra. apply Rmult_le_reg_r with (1 + r)%R; [lra|]. apply Rmult_le_reg_r with (1 + s)%R; [lra|].
      replace (2 * r / (1 + r) * (1 + r) * (1 + s))%R with (2 * r * (1 + s))%R by (field; lra).
      replace (2 * s / (1 + s) * (1 + r) * (1 + s))%R with (2 * s * (1 + r))%R by (field; lra). nra.
    + rewrite (@vl_nonpos r) by lra. destruct (Rlt_dec 0 s) as [H'|H']; [destruct (Hb s H'); lra | rewrite vl_nonpos; lra].
Qed.
(* @ex *)
Lemma van_leer_limiter_bounds_ex_lem : van_leer_limiter 3 = (3 / 2)%R /\ (3 / 2 <= 2 * 3)%R.
Proof. split; [rewrite vl_pos; lra | lra]. Qed.

(* @prop C26 Lax-Wendroff interpolation to the face half a cell ahead returns (a + b)/2 - C (b - a)/2 with a, b the cells behind and ahead and C the Courant number dt u / h, for either direction of flow. *)
Lemma lax_wendroff_face_spec_lem : forall c ax o' v u dt, periodic_field c -> (ax < gndim (ggrid (garray c)))%nat ->
  off_eq o' (offs ax (1 # 2) (goff (garray c))) -> nth_error v ax = Some u ->
  wf_garr (garray u) -> ggrid (garray u) = ggrid (garray c) -> (nth ax (goff (garray u)) 0 == nth ax o' 0)%Q ->
  exists w, lax_wendroff c o' v dt = Ok w /\ perbc (ggrid (garray c)) (gbc w) /\
    is_field (garray w) (ggrid (garray c)) o'
      (fun ix => let a := get (gdata (garray c)) ix in let b := pval (garray c) (next ax ix) in
         ((a + b) / 2 - dt * get (gdata (garray u)) ix / hstep (ggrid (garray c)) ax * (b - a) / 2)%R).
Proof.
  intros c ax o' v u dt Hc Hax Ho' Hv Hu Hg Hou. pose proof (pf_off Hc) as Hlo.
  assert (Hd : (nth ax (goff (garray u)) 0 - nth ax (goff (garray c)) 0 == 1 # 2)%Q).
  { rewrite Hou, (off_eq_nth ax Ho'). unfold offs. rewrite nth_upd_same by lia. ring. }
  destruct (half_floor Hd) as (Hf & Hz).
  destruct (@lax_prep _ _ _ c ax (nth ax (goff (garray c)) 0 + (1 # 2))%Q o' v u (pf_wfg Hc) (pf_per Hc) Hax Hlo (pf_pvar Hc) Ho') with (dt := dt) as (w & E & Eb & (P & Pb)); auto.
  - intros E. Lqa.lra.
  - split; [auto|]. destruct Hu as (_ & Hs & _). congruence.
  - exists w. split; [exact E|]. split; [exact Pb|]. eapply prep_ext; [|exact P]. intros ix Hix. cbv zeta. rewrite Hf, shiftix_0.
    assert (Hpv : pval (garray c) ix = get (gdata (garray c)) ix).
    { apply pval_inb. destruct Hc as ((_ & Hs & _) & _). rewrite Hs. exact Hix. }
    rewrite Hpv. change (0 + 1) with 1. fold (next ax ix).
    unfold Rdiv. set (hi := Rinv (hstep (ggrid (garray c)) ax)). destruct (Rlt_dec _ _); field.
Qed.
(* @ex *)
Lemma lax_wendroff_face_spec_ex_lem :
  periodic_field ipc /\ off_eq [1%Q; (1 # 2)%Q] (offs 0 (1 # 2) (goff (garray ipc))) /\
  exists w, lax_wendroff ipc [1%Q; (1 # 2)%Q] [ipu; ipu] 1 = Ok w /\ get (gdata (garray w)) [1; 0] = (12 + / 2)%R.
Proof.
  split; [exact ipc_pf|]. split; [repeat constructor; reflexivity|].
  destruct (@lax_wendroff_face_spec_lem ipc 0 [1%Q; (1 # 2)%Q] [ipu; ipu] ipu 1) as (w & E & _ & (_ & _ & _ & V)); auto.
  - exact ipc_pf.
  - unfold gndim; simpl; lia.
  - repeat constructor; reflexivity.
  - apply ipu_pf.
  - reflexivity.
  - exists w. split; [exact E|]. rewrite V by (cbn; lia). unfold pval, hstep. cbn. lra.
Qed.
