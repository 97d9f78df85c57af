(** * Values computed by [advect_van_leer] for periodic fields, at any offset *)
From Coq Require Import Qreals.
From Verif Require Import Prelude NdArr Grids_model Spec Boundaries_model BoundariesPeriodic FD_model PRep FDProofs FDProps Interp_model InterpProofs InterpProps UpwindProps PressureProps Advection_model AdvectionProofs AdvectionProps.
Set Implicit Arguments.
Local Open Scope Z_scope.

Lemma wrap_shift_floor q : wrap_shift q = - Qfloor q.
Proof. unfold wrap_shift. apply py_int_inject. unfold mod1. rewrite inject_Z_opp. ring. Qed.

(** ** mixed operands *)
Lemma prep_arr_r f g o F G a x : prep g o F a -> shp x = gshape g -> (forall ix, inb (gshape g) ix -> get x ix = G ix) ->
  exists w, array_ufunc (raw2 f) [OGA a; OArray x] = Ok w /\ prep g o (fun ix => f (F ix) (G ix)) w.
Proof.
  intros (A1 & B1 & C1 & D1) Hs Hg. unfold array_ufunc. cbn [existsb is_gv orb map raw gas].
  destruct (@raw2_ok f _ _ _ _ _ C1 Hs D1 Hg) as (d & Ed & Sd & Vd). rewrite Ed. cbn [bind]. cbn.
  eexists; split; [reflexivity|]. repeat split; auto.
Qed.
Lemma prep_op1 f g o F a : prep g o F a -> exists w, ga_op1 f a = Ok w /\ prep g o (fun ix => f (F ix)) w.
Proof.
  intros (A1 & B1 & C1 & D1). unfold ga_op1, array_ufunc. cbn.
  eexists; split; [reflexivity|]. repeat split; auto. intros ix Hi. cbn. rewrite D1; auto.
Qed.
Lemma where_arr g o U A B u x y : prep g o U u -> shp x = gshape g -> shp y = gshape g ->
  (forall ix, inb (gshape g) ix -> get x ix = A ix) -> (forall ix, inb (gshape g) ix -> get y ix = B ix) ->
  exists w, ga_where_pos u (OArray x) (OArray y) = Ok w /\ prep g o (fun ix => if Rlt_dec 0 (U ix) then A ix else B ix) w /\ goff w = goff u.
Proof.
  intros (A1 & B1 & C1 & D1) Hx Hy HA HB. unfold ga_where_pos, applied. cbn.
  destruct (@where_pos_ok _ _ _ _ _ _ _ C1 Hx Hy D1 HA HB) as (d & Ed & Sd & Vd). rewrite Ed. cbn [bind].
  eexists; split; [reflexivity|]. repeat split; auto.
Qed.
Lemma where_ga g o U A B u x y : prep g o U u -> prep g o A x -> prep g o B y ->
  exists w, ga_where_pos u (OGA x) (OGA y) = Ok w /\ prep g o (fun ix => if Rlt_dec 0 (U ix) then A ix else B ix) w.
Proof.
  intros (A1 & B1 & C1 & D1) (A2 & B2 & C2 & D2) (A3 & B3 & C3 & D3). unfold ga_where_pos, applied. cbn.
  assert (E2 : off_eqb (goff u) (goff x) = true) by (apply off_eqb_iff; eapply off_eq_trans; [exact B1 | apply off_eq_sym; exact B2]).
  assert (E3 : off_eqb (goff u) (goff y) = true) by (apply off_eqb_iff; eapply off_eq_trans; [exact B1 | apply off_eq_sym; exact B3]).
  unfold consistent_offset, consistent_grid. cbn [forallb]. rewrite E2, E3, A1, A2, A3, grid_eqb_refl. cbn [andb bind].
  destruct (@where_pos_ok _ _ _ _ _ _ _ C1 C2 C3 D1 D2 D3) as (d & Ed & Sd & Vd). rewrite Ed. cbn [bind].
  eexists; split; [reflexivity|]. repeat split; auto.
Qed.

(** ** shifts along every axis *)
Fixpoint shF (K : nat -> Z) (n : nat) (F : list Z -> R) : list Z -> R :=
  match n with O => F | S n => fun ix => shF K n F (shiftix n (K n) ix) end.
Fixpoint shO (K : nat -> Z) (n : nat) (o : list Q) : list Q :=
  match n with O => o | S n => offs n (inject_Z (K n)) (shO K n o) end.
Lemma shO_length K n o : length (shO K n o) = length o.
Proof. induction n; cbn; auto. rewrite offs_length. auto. Qed.
Lemma shF_periodic K n s F : periodic s F -> periodic s (shF K n F).
Proof. intros H. induction n; cbn; auto. apply (periodic_shift n (K n) IHn). Qed.
Lemma shF_shift K n F a k ix : shF K n (fun jx => F (shiftix a k jx)) ix = shF K n F (shiftix a k ix).
Proof. revert ix. induction n; intros ix; cbn; auto. rewrite IHn. f_equal. apply shiftix_comm. Qed.
Lemma shO_nth K n o k : (k < length o)%nat -> (nth k (shO K n o) 0 == nth k o 0 + (if (k <? n)%nat then inject_Z (K k) else 0))%Q.
Proof.
  intros Hk. induction n; cbn [shO].
  - destruct (Nat.ltb_spec k 0); [lia|]. ring.
  - unfold offs. destruct (Nat.eq_dec k n) as [->|Hne].
    + rewrite nth_upd_same by (rewrite shO_length; auto). rewrite IHn.
      destruct (Nat.ltb_spec n n); [lia|]. destruct (Nat.ltb_spec n (S n)); [|lia]. ring.
    + rewrite nth_upd_other by auto. rewrite IHn.
      destruct (Nat.ltb_spec k n), (Nat.ltb_spec k (S n)); try lia; reflexivity.
Qed.
Lemma shO_back K n o : (n <= length o)%nat -> off_eq (shO (fun a => - K a) n (shO K n o)) o.
Proof.
  intros Hn. apply off_eq_intro; [rewrite !shO_length; auto|]. intros k Hk. rewrite !shO_length in Hk.
  rewrite !shO_nth by (rewrite ?shO_length; auto). destruct (Nat.ltb_spec k n); [rewrite inject_Z_opp; ring | ring].
Qed.
Lemma shF_ext K n (s : list nat) F G : (forall ix, length ix = length s -> F ix = G ix) -> forall ix, length ix = length s -> shF K n F ix = shF K n G ix.
Proof. intros H. induction n; intros ix Hix; cbn; auto. apply IHn. rewrite shiftix_length; auto. Qed.
Lemma shF_0 K n F ix : (forall a, (a < n)%nat -> K a = 0) -> shF K n F ix = F ix.
Proof. revert ix. induction n; intros ix H; cbn; auto. rewrite H by lia. rewrite shiftix_0. apply IHn. intros; apply H; lia. Qed.

Definition van_leer_term (dt h W l2 l1 c0 r1 : R) : R :=
  (let num := (if Rlt_dec 0 W then l1 - l2 else r1 - c0) in let D := (c0 - l1) in
   (/ 2 * (1 - dt / h * Rabs W) * Rabs W) *
   (num * (rsign D + rsign num) * (D / (if Rlt_dec 0 (Rabs D) then Rabs D + Rabs num else 1))))%R.

Section VL.
Variables (c : gvar) (v : list gvar) (dt : R) (mode : padmode).
Let g := ggrid (garray c).
Let o := goff (garray c).
Let F := pval (garray c).
Hypothesis (Hc : periodic_field c) (Hd : (0 < gndim g)%nat) (Hv : periodic_vec g v) (Hh : homogeneous_vec v).
Let K (a : nat) : Z := - Qfloor (nth a o 0%Q).
Let o1 := shO K (gndim g) o.
Let last := (gndim g - 1)%nat.
Let m : Z := py_int (1 - nth last o 0)%Q.
Let s (i : nat) : Z := - Qfloor (nth i o1 0 + (1 # 2))%Q.
(** velocity [i] on the face [i] of the control volume around the shifted scalar *)
Definition vlU (i : nat) : list Z -> R :=
  lerp (gndim g) (goff (garray (nth i v dgv))) (offs i (1 # 2) o1) (pval (garray (nth i v dgv))).
Definition vlFlux (i : nat) (ix : list Z) : R :=
  ((if Rlt_dec 0 (vlU i ix) then vlU i ix * shF K (gndim g) F ix else vlU i ix * shF K (gndim g) F (shiftix i 1 ix))
   + (let P := fun k => F (shiftix last m (shiftix i (k - s i)%Z ix)) in
      van_leer_term dt (hstep g i) (vlU i ix) (P (-2)%Z) (P (-1)%Z) (P 0%Z) (P 1%Z)))%R.

Lemma vlU_periodic i : (i < gndim g)%nat -> periodic (gshape g) (vlU i).
Proof. intros Hi. apply lerp_periodic. destruct (periodic_vec_nth Hv Hi) as (Hp & Hpg). rewrite <- Hpg. apply pf_per. exact Hp. Qed.

Lemma vl_left : exists cl, foldM (fun acc ax => let* s := gv_shift acc (wrap_shift (nth ax o 0%Q)) ax in impose_bc (gbc c) s) c (seq 0 (gndim g)) = Ok cl /\
  pvar g o1 (shF K (gndim g) F) cl.
Proof.
  pose proof (pf_wfg Hc) as Hw. fold g in Hw. pose proof (pf_off Hc) as Ho. fold g in Ho. fold o in Ho.
  assert (Hgen : forall n, (n <= gndim g)%nat -> exists cl, foldM (fun acc ax => let* s := gv_shift acc (wrap_shift (nth ax o 0%Q)) ax in impose_bc (gbc c) s) c (seq 0 n) = Ok cl /\
    pvar g (shO K n o) (shF K n F) cl); [|apply Hgen; lia].
  induction n as [|n IH]; intros Hn.
  - exists c. split; [reflexivity|]. cbn. exact (pf_pvar Hc).
  - destruct IH as (cl & E & P); [lia|]. rewrite seq_S, foldM_app, E. cbn [bind Nat.add foldM].
    rewrite wrap_shift_floor. fold (K n).
    destruct (@pvar_shift g _ _ cl (K n) n Hw (shF_periodic K n (pf_per Hc)) ltac:(lia) ltac:(rewrite shO_length; exact Ho) P) as (w & Ew & Pw).
    rewrite Ew. cbn [bind].
    destruct (@impose_prep g (offs n (inject_Z (K n)) (shO K n o)) (fun ix => shF K n F (shiftix n (K n) ix)) (gbc c) w Hw) as (x & Ex & Px); [| | exact Pw |].
    { rewrite offs_length, shO_length. exact Ho. }
    { exact (proj2 (pf_pvar Hc)). }
    rewrite Ex. cbn [bind]. eexists; split; [reflexivity|]. split; [exact Px|]. exact (proj2 (pf_pvar Hc)).
Qed.

Lemma vl_corr i u fbc target : (i < gndim g)%nat -> pvar g (offs i (1 # 2) o1) (vlU i) u -> perbc g fbc -> (target == nth i o1 0 + (1 # 2))%Q ->
  exists w, van_leer_correction c dt mode i u (hstep g i) fbc target = Ok w /\
    prep g (offs i (1 # 2) o1) (fun ix => let P := fun k => F (shiftix last m (shiftix i (k - s i)%Z ix)) in
      van_leer_term dt (hstep g i) (vlU i ix) (P (-2)%Z) (P (-1)%Z) (P 0%Z) (P 1%Z)) w.
Proof.
  intros Hi Pu Hb Ht.
  pose proof (pf_wfg Hc) as Hw. fold g in Hw. pose proof (pf_off Hc) as Ho. fold g in Ho. fold o in Ho.
  assert (Ho1 : length o1 = gndim g) by (unfold o1; rewrite shO_length; exact Ho).
  assert (Hof : length (offs i (1 # 2) o1) = gndim g) by (rewrite offs_length; exact Ho1).
  pose proof Pu as ((_ & Bu & _) & Hub).
  assert (Hn : (nth i (goff (garray u)) 0 == nth i o1 0 + (1 # 2))%Q).
  { rewrite (off_eq_nth i Bu). unfold offs. rewrite nth_upd_same by lia. reflexivity. }
  unfold van_leer_correction. rewrite wrap_shift_floor, (Qfloor_comp _ _ Hn). fold (s i).
  destruct (@prep_shift g _ _ (gbc u) (garray u) (s i) i EXTEND Hw (vlU_periodic Hi) (btype_perbc Hub Hi) Hi Hof (proj1 Pu)) as (us & Eus & Pus).
  rewrite Eus. cbn [bind]. fold g. fold o. fold last. fold m.
  pose proof (pf_per Hc) as PF. fold F in PF. fold g in PF.
  assert (Hl : (last < gndim g)%nat) by (unfold last; lia).
  destruct (@pvar_shift g o F c m last Hw PF Hl Ho (pf_pvar Hc)) as (cca & Ecca & Pcca). rewrite Ecca. cbn [bind].
  set (F' := fun ix => F (shiftix last m ix)) in *.
  assert (PF' : periodic (gshape g) F') by (apply periodic_shift; exact PF).
  assert (Hcb : btype (gbc c) i = (Periodic, Periodic)) by (apply (@btype_perbc g); [exact (proj2 (pf_pvar Hc)) | exact Hi]).
  assert (Hoo : length (offs last (inject_Z m) o) = gndim g) by (rewrite offs_length; exact Ho).
  destruct (@prep_shift g _ F' (gbc c) cca 1 i mode Hw PF' Hcb Hi Hoo Pcca) as (cr & Ecr & (_ & _ & Scr & Vcr)). rewrite Ecr. cbn [bind].
  destruct (@prep_shift g _ F' (gbc c) cca (-1) i EXTEND Hw PF' Hcb Hi Hoo Pcca) as (cl & Ecl & (_ & _ & Scl & Vcl)). rewrite Ecl. cbn [bind].
  destruct (@prep_shift g _ F' (gbc c) cca (-2) i mode Hw PF' Hcb Hi Hoo Pcca) as (cll & Ecll & (_ & _ & Scll & Vcll)). rewrite Ecll. cbn [bind].
  destruct Pcca as (_ & _ & Scc & Vcc).
  destruct (@raw2_ok Rminus _ _ _ _ _ Scl Scll Vcl Vcll) as (np & Enp & Snp & Vnp). rewrite Enp. cbn [bind].
  destruct (@raw2_ok Rminus _ _ _ _ _ Scr Scc Vcr Vcc) as (nn & Enn & Snn & Vnn). rewrite Enn. cbn [bind].
  set (ou := offs i (inject_Z (s i)) (offs i (1 # 2) o1)) in *.
  destruct (@where_arr _ _ _ _ _ _ _ _ Pus Snp Snn Vnp Vnn) as (num & Enum & Pnum & _). rewrite Enum. cbn [bind].
  destruct (@raw2_ok Rminus _ _ _ _ _ Scc Scl Vcc Vcl) as (dd & Edd & Sdd & Vdd). rewrite Edd. cbn [bind].
  pose proof Pus as (Gus & Bus & _ & _).
  assert (Pden : prep g ou (fun ix => F' ix - F' (shiftix i (-1) ix))%R (mkga dd (goff us) (ggrid us))).
  { split; [exact Gus|]. split; [exact Bus|]. split; [exact Sdd | exact Vdd]. }
  set (den := mkga dd (goff us) (ggrid us)) in *.
  destruct (prep_op2 (fun d n => Rabs d + Rabs n)%R Pden Pnum) as (su & Esu & Psu). rewrite Esu. cbn [bind].
  destruct (prep_op2 (fun d s => if Rlt_dec 0 (Rabs d) then s else 1%R) Pden Psu) as (sa & Esa & Psa). rewrite Esa. cbn [bind].
  destruct (prep_op2 Rdiv Pden Psa) as (inv & Einv & Pinv). rewrite Einv. cbn [bind].
  destruct (prep_op2 (fun d n => rsign d + rsign n)%R Pden Pnum) as (sg & Esg & Psg). rewrite Esg. cbn [bind].
  destruct (prep_op2 Rmult Pnum Psg) as (p0 & Ep0 & Pp0). unfold ga_mul at 1. rewrite Ep0. cbn [bind].
  destruct (prep_op2 Rmult Pp0 Pinv) as (p1 & Ep1 & Pp1). unfold ga_mul at 1. rewrite Ep1. cbn [bind].
  destruct (prep_op1 (fun x => / 2 * (1 - dt / hstep g i * Rabs x) * Rabs x)%R Pus) as (pre & Epre & Ppre). rewrite Epre. cbn [bind].
  destruct (prep_op2 Rmult Ppre Pp1) as (co & Eco & Pco). unfold ga_mul at 1. rewrite Eco. cbn [bind].
  assert (Hsh : py_int (target - nth i (goff us) 0)%Q = - s i).
  { apply py_int_inject. rewrite Ht, (off_eq_nth i Bus). unfold ou, offs. rewrite !nth_upd_same by (rewrite ?upd_length; lia). rewrite inject_Z_opp. ring. }
  rewrite Hsh.
  match type of Pco with is_field _ _ _ ?G => set (CF := G) in * end.
  assert (PC : periodic (gshape g) CF).
  { assert (E : forall k ix, length ix = length (gshape g) -> F' (shiftix i k (wrap (gshape g) ix)) = F' (shiftix i k ix)) by (intros k ix Hix; exact (periodic_shift i k PF' ix Hix)).
    intros ix Hix. unfold CF. rewrite !E, !(PF' ix Hix) by exact Hix.
    pose proof (periodic_shift i (s i) (vlU_periodic Hi) ix Hix) as EU. cbv beta in EU. rewrite EU. reflexivity. }
  assert (Hou : length ou = gndim g) by (unfold ou; rewrite !offs_length; exact Ho1).
  destruct (@prep_shift g ou CF fbc co (- s i) i EXTEND Hw PC (btype_perbc Hb Hi) Hi Hou Pco) as (w & Ew & Pw).
  exists w. split; [exact Ew|].
  eapply prep_off; [|eapply prep_ext; [|exact Pw]].
  - unfold ou. eapply off_eq_trans; [apply offs_offs|]. eapply off_eq_trans; [|apply (offs_0 i)].
    apply off_eq_offs; [apply off_eq_refl|]. rewrite inject_Z_opp. ring.
  - intros ix Hix. unfold CF, van_leer_term, F'. cbv beta zeta. rewrite !shiftix_add.
    replace (s i + - s i) with 0 by lia. rewrite shiftix_0.
    replace (0 - s i) with (- s i) by lia. replace (-1 - s i) with (-1 + - s i) by lia.
    replace (-2 - s i) with (-2 + - s i) by lia. replace (1 - s i) with (1 + - s i) by lia. reflexivity.
Qed.

Lemma vlFlux_periodic i : (i < gndim g)%nat -> periodic (gshape g) (vlFlux i).
Proof.
  intros Hi ix Hix. pose proof (pf_per Hc) as PF. fold F in PF. fold g in PF. unfold vlFlux.
  pose proof (shF_periodic K (gndim g) PF) as PS.
  assert (E : forall k, F (shiftix last m (shiftix i k (wrap (gshape g) ix))) = F (shiftix last m (shiftix i k ix))).
  { intros k. exact (periodic_shift i k (periodic_shift last m PF) ix Hix). }
  cbv zeta. rewrite (vlU_periodic Hi ix Hix), (PS ix Hix), !E.
  pose proof (periodic_shift i 1 PS ix Hix) as E1. cbv beta in E1. rewrite E1. reflexivity.
Qed.

Lemma back_shift a F0 n : periodic (gshape g) F0 -> (n <= gndim g)%nat -> prep g o1 F0 a ->
  exists w, foldM (fun acc ax => bc_shift (gbc c) acc (- wrap_shift (nth ax o 0%Q)) ax EXTEND) a (seq 0 n) = Ok w /\
    prep g (shO (fun a => - K a) n o1) (shF (fun a => - K a) n F0) w.
Proof.
  intros HF. pose proof (pf_wfg Hc) as Hw. fold g in Hw. pose proof (pf_off Hc) as Ho. fold g in Ho. fold o in Ho.
  induction n as [|n IH]; intros Hn P.
  - exists a. split; [reflexivity | exact P].
  - destruct IH as (w & E & Pw); [lia | exact P|]. rewrite seq_S, foldM_app, E. cbn [bind Nat.add foldM].
    rewrite wrap_shift_floor. fold (K n).
    assert (Hln : (n < gndim g)%nat) by lia.
    assert (Hlo : length (shO (fun a => - K a) n o1) = gndim g) by (rewrite shO_length; unfold o1; rewrite shO_length; exact Ho).
    destruct (@prep_shift g _ _ (gbc c) w (- K n) n EXTEND Hw (shF_periodic (fun a => - K a) n HF) (btype_perbc (proj2 (pf_pvar Hc)) Hln) Hln Hlo Pw) as (x & Ex & Px).
    rewrite Ex. cbn [bind]. eexists; split; [reflexivity | exact Px].
Qed.

Lemma outflow_periodic FL : (forall i, (i < gndim g)%nat -> periodic (gshape g) (FL i)) -> periodic (gshape g) (fun ix => - divF g FL ix)%R.
Proof.
  intros H ix Hix. unfold divF, bdF, prev. f_equal. apply nsum_ext. intros i Hi.
  pose proof (periodic_shift i (-1) (H i Hi) ix Hix) as E1. cbv beta in E1. rewrite E1, (H i Hi ix Hix). reflexivity.
Qed.

Lemma van_leer_prep : exists w, advect_van_leer c v dt mode = Ok w /\
  prep g o (shF (fun a => - K a) (gndim g) (fun ix => - outflow g vlFlux ix)%R) w.
Proof.
  pose proof (pf_wfg Hc) as Hw. fold g in Hw. pose proof (pf_off Hc) as Ho. fold g in Ho. fold o in Ho.
  pose proof Hv as (HLv & _). pose proof (pf_per Hc) as PF. fold F in PF. fold g in PF.
  assert (Ho1 : length o1 = gndim g) by (unfold o1; rewrite shO_length; exact Ho).
  unfold advect_van_leer. fold g. fold o. destruct (Nat.eqb_spec (gndim g) 0); [lia|].
  destruct vl_left as (cl & Ecl & Pcl). rewrite Ecl. cbn [bind].
  pose proof Pcl as ((Gcl & Bcl & Scl & Vcl) & Bbc).
  assert (Lcl : length (goff (garray cl)) = gndim g) by (rewrite (off_eq_length Bcl); exact Ho1).
  set (offsets := cv_offsets (goff (garray cl))).
  assert (Loff : length offsets = gndim g) by (unfold offsets; rewrite cv_length; exact Lcl).
  assert (Hos : forall i, (i < gndim g)%nat -> off_eq (nth i offsets []) (offs i (1 # 2) o1)).
  { intros i Hi. eapply off_eq_trans; [apply cv_nth; lia|]. apply off_eq_offs; [exact Bcl | reflexivity]. }
  assert (Hol : forall i, (i < gndim g)%nat -> length (offs i (1 # 2) o1) = gndim g) by (intros i Hi; rewrite offs_length; exact Ho1).
  destruct (@mapM_combine gvar (list Q) gvar (fun uo => linear_interp (fst uo) (snd uo))
    (fun i w => pvar g (offs i (1 # 2) o1) (vlU i) w) v offsets dgv []) as (av & Eav & HLav & Hav); [lia | |].
  { intros i Hi. cbn [fst snd]. assert (Hi' : (i < gndim g)%nat) by lia.
    destruct (periodic_vec_nth Hv Hi') as (Hp & Hpg).
    pose proof (pf_pvar Hp) as Pu. rewrite Hpg in Pu.
    pose proof (pf_per Hp) as Pp. rewrite Hpg in Pp. pose proof (pf_off Hp) as Po. rewrite Hpg in Po.
    assert (Lo' : length (nth i offsets []) = gndim g) by (rewrite (off_eq_length (Hos i Hi')); auto).
    destruct (@lin_all_prep g _ _ _ (nth i offsets []) Hw Pp Po Lo' Pu) as (w & E & Eb & (P & Pb)).
    exists w. split; [exact E|]. split; [|exact Pb]. eapply prep_off; [apply Hos; auto|]. eapply prep_ext; [|exact P]. intros ix Hix.
    unfold vlU. apply (@lerp_off_eq (gshape g)); [|apply inb_length; auto]. apply Hos; auto. }
  rewrite Eav. cbn [bind].
  destruct (@mapM_enum gvar bcs (fun iu => advection_flux_bc (snd iu) c (fst iu)) (fun i b => perbc g b) v dgv) as (bs & Eb & HLb & Hb).
  { intros i Hi. cbn [fst snd]. assert (Hi' : (i < gndim g)%nat) by lia. destruct (periodic_vec_nth Hv Hi') as (Hp & Hpg).
    apply flux_bc_ok; [pose proof (proj2 (pf_pvar Hp)) as X; rewrite Hpg in X; exact X | | reflexivity].
    unfold homogeneous_vec in Hh. rewrite Forall_forall in Hh. apply Hh. apply nth_In. lia. }
  rewrite Eb. cbn [bind].
  pose proof (shF_periodic K (gndim g) PF) as PS.
  match goal with |- exists w, bind (mapM ?f _) _ = _ /\ _ =>
    destruct (@mapM_enum gvar garr f (fun i w => prep g (offs i (1 # 2) o1)
      (fun ix => if Rlt_dec 0 (vlU i ix) then vlU i ix * shF K (gndim g) F ix else vlU i ix * shF K (gndim g) F (shiftix i 1 ix))%R w) av dgv) as (fl & Ef & HLf & Hf) end.
  { intros i Hi. assert (Hi' : (i < gndim g)%nat) by lia. destruct (Hav i dgv ltac:(lia)) as (Pu & _).
    destruct (@pvar_shift g o1 _ cl 1 i Hw PS Hi' Ho1 Pcl) as (cr & Ecr & (_ & _ & Scr & Vcr)). rewrite Ecr. cbn [bind].
    destruct (@prep_arr_r Rmult _ _ _ _ _ _ Pu Scl Vcl) as (f1 & E1 & P1). rewrite E1. cbn [bind].
    destruct (@prep_arr_r Rmult _ _ _ _ _ _ Pu Scr Vcr) as (f2 & E2 & P2). rewrite E2. cbn [bind].
    apply (where_ga Pu P1 P2). }
  rewrite Ef. cbn [bind].
  match goal with |- exists w, bind (mapM ?f _) _ = _ /\ _ =>
    destruct (@mapM_enum (gvar * R * garr) garr f (fun i w => prep g (offs i (1 # 2) o1) (vlFlux i) w) (combine (combine av (gstep g)) fl) ((dgv, 0%R), dga)) as (fc & Efc & HLfc & Hfc) end.
  { assert (Hgs : length (gstep g) = gndim g) by (destruct Hw as (H & _); exact H).
    intros i Hi. rewrite !combine_length, Hgs, HLf, HLav, HLv, !Nat.min_id in Hi. rewrite combine_nth, combine_nth by (rewrite ?combine_length; lia).
    cbv beta iota.
    assert (G1 : getM bs i = Ok (nth i bs (mkbc [] [] true))) by (unfold getM; rewrite (nth_error_nth' bs (mkbc [] [] true)) by lia; reflexivity).
    assert (G2 : getM offsets i = Ok (nth i offsets [])) by (unfold getM; rewrite (nth_error_nth' offsets []) by lia; reflexivity).
    rewrite G1, G2. cbn [bind].
    destruct (@vl_corr i (nth i av dgv) (nth i bs (mkbc [] [] true)) (nth i (nth i offsets []) 0%Q) Hi (Hav i dgv ltac:(lia)) (Hb i _ ltac:(lia))) as (w & Ew & Pw).
    { rewrite (off_eq_nth i (Hos i Hi)). unfold offs. rewrite nth_upd_same by lia. reflexivity. }
    unfold hstep in Ew. rewrite Ew. cbn [bind].
    destruct (prep_op2 Rplus (Hf i dga ltac:(lia)) Pw) as (x & Ex & Px). exists x. split; [exact Ex | exact Px]. }
  rewrite Efc. cbn [bind].
  assert (Hgs : length (gstep g) = gndim g) by (destruct Hw as (H & _); exact H).
  rewrite !combine_length, Hgs, HLf, HLav, HLv, !Nat.min_id in HLfc. rewrite !combine_length, Hgs, HLf, HLav, HLv, !Nat.min_id in Hfc.
  match goal with |- exists w, bind (mapM ?f _) _ = _ /\ _ =>
    destruct (@mapM_enum garr gvar f (fun i w => pvar g (offs i (1 # 2) o1) (vlFlux i) w) fc dga) as (fs & Efs & HLfs & Hfs) end.
  { intros i Hi. cbn [fst snd].
    assert (G1 : getM bs i = Ok (nth i bs (mkbc [] [] true))) by (unfold getM; rewrite (nth_error_nth' bs (mkbc [] [] true)) by lia; reflexivity).
    rewrite G1. cbn [bind].
    destruct (@impose_prep g _ _ (nth i bs (mkbc [] [] true)) (nth i fc dga) Hw (Hol i ltac:(lia)) (Hb i _ ltac:(lia)) (Hfc i dga ltac:(lia))) as (w & Ew & Pw).
    eexists. split; [exact Ew|]. split; [exact Pw|]. apply Hb. lia. }
  rewrite Efs. cbn [bind].
  destruct (@div_prep g o1 (fun i => offs i (1 # 2) o1) vlFlux fs Hw Hd) as (d & Ed & Pd).
  { split; [lia|]. intros i Hi. apply Hfs. lia. }
  { exact vlFlux_periodic. }
  { intros i Hi. split; [apply Hol; auto|]. apply offs_half_back. }
  rewrite Ed. cbn [bind].
  destruct (prep_neg Pd) as (ad & Ea & Pa). rewrite Ea. cbn [bind].
  destruct (@back_shift ad _ (gndim g) (outflow_periodic _ vlFlux_periodic) (Nat.le_refl _) Pa) as (w & Ew & Pw).
  exists w. split; [exact Ew|]. eapply prep_off; [|exact Pw]. unfold o1. apply shO_back. lia.
Qed.
End VL.
