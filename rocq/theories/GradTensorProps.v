(** * C69: gradient_tensor *)
From Verif Require Import Prelude NdArr Grids_model Spec Boundaries_model FD_model PRep FDProofs FDProps Interp_model InterpProofs InterpProps Advection_model AdvectionProps PressureProps PressureSolveProps TimeStep_model Equations_model SpecNS EquationsProps ArrayUtilsProps SpecLin EncoderProps Subgrid_model SpecSub SubgridProps SubgridMoreProps Viscosities_model.
Set Implicit Arguments.
Local Open Scope Z_scope.

Lemma central_of_interp g u F ax o : periodic_field u -> ggrid (garray u) = g -> (ax < gndim g)%nat -> length o = gndim g ->
  (forall ix, length ix = gndim g -> lerp (gndim g) (goff (garray u)) o (pval (garray u)) ix = F ix) ->
  exists w, (let* c := linear_interp u o in central_difference c ax) = Ok w /\ is_field w g o (fun ix => (F (next ax ix) - F (prev ax ix)) / (2 * hstep g ax))%R.
Proof.
  intros Hu Hg Hax Ho HF. destruct (@linear_interpolation_spec_lem u o Hu) as (c & Ec & Hb & Pc); [rewrite Hg; exact Ho|]. rewrite Ec. cbn [bind]. rewrite Hg in Pc.
  assert (Hcf : periodic_field c).
  { destruct Hu as (Hwf & Hbc). destruct Pc as (G & Of & S & V). destruct Hwf as (W & _). rewrite Hg in W, Hbc. split; [|unfold perbc in *; rewrite Hb, G; exact Hbc]. rewrite <- G in *. split; [exact W|]. split; [exact S|]. rewrite (off_eq_length Of). exact Ho. }
  destruct (@central_difference_spec_lem c ax Hcf) as (w & Ew & Pw); [rewrite (proj1 Pc); exact Hax|]. exists w. split; [exact Ew|]. rewrite (proj1 Pc) in Pw.
  eapply prep_off; [apply (proj1 (proj2 Pc))|]. eapply prep_ext; [|exact Pw]. intros ix Hix. pose proof (inb_length _ _ Hix) as HL.
  assert (V : forall jx, length jx = gndim g -> pval (garray c) jx = F jx).
  { intros jx HLj. rewrite <- (HF jx HLj). apply (@pval_prep g o _ (garray c) jx); auto; [apply lerp_periodic; rewrite <- Hg; apply pf_per; exact Hu|]. pose proof (pf_wfg Hu) as W. rewrite Hg in W. apply W. }
  cbv beta. rewrite !V by (unfold next, prev; rewrite shiftix_length; exact HL). reflexivity.
Qed.

(** value of entry (axis a, component k) for a velocity on the cell faces *)
Lemma face_column g v k : (0 < gndim g)%nat -> periodic_vec g v -> face_aligned (cell_center g) v -> (k < gndim g)%nat ->
  exists col, gradient_tensor1 (nth k v dgv) = Ok col /\ length col = gndim g /\ forall a, (a < gndim g)%nat ->
    prep g (cell_center g) (fun ix => if (a =? k)%nat then (vval v k ix - vval v k (prev k ix)) / hstep g k
                                      else ((vval v k (prev k (next a ix)) + vval v k (next a ix)) / 2 - (vval v k (prev k (prev a ix)) + vval v k (prev a ix)) / 2) / (2 * hstep g a))%R (nth a col dga).
Proof.
  intros Hd Hv Hf Hk. destruct (periodic_vec_nth Hv Hk) as (Hp & Hg). pose proof (face_nth Hv Hf Hk) as Hoff. assert (HLv : length v = gndim g) by apply Hv. unfold gradient_tensor1. rewrite Hg.
  assert (Lc : length (cell_center g) = gndim g) by apply repeat_length.
  assert (Lo : length (goff (garray (nth k v dgv))) = gndim g) by (rewrite (off_eq_length Hoff), offs_length; exact Lc).
  assert (Hcc : forall a, (a < gndim g)%nat -> nth a (cell_center g) 0%Q = (1 # 2)%Q) by (intros a Ha; unfold cell_center; apply nth_repeat'; exact Ha).
  destruct (@mapM_seq garr (fun axis => let* offset := getM (goff (garray (nth k v dgv))) axis in
      if Qeq_bool offset 0 then forward_difference (nth k v dgv) axis
      else if Qeq_bool offset 1 then backward_difference (nth k v dgv) axis
      else if Qeq_bool offset (1 # 2) then let* v_centered := linear_interp (nth k v dgv) (cell_center g) in central_difference v_centered axis else Err EValue)
    (fun a w => prep g (cell_center g) (fun ix => if (a =? k)%nat then (vval v k ix - vval v k (prev k ix)) / hstep g k
                                      else ((vval v k (prev k (next a ix)) + vval v k (next a ix)) / 2 - (vval v k (prev k (prev a ix)) + vval v k (prev a ix)) / 2) / (2 * hstep g a))%R w) (gndim g)) as (col & E & L & P).
  - intros a Ha. unfold getM. rewrite (nth_error_nth' _ 0%Q) by lia. cbn [bind]. pose proof (off_eq_nth a Hoff) as Ea. destruct (Nat.eqb_spec a k) as [->|Hne].
    + unfold offs in Ea. rewrite nth_upd_same, Hcc in Ea by lia.
      replace (Qeq_bool (nth k (goff (garray (nth k v dgv))) 0%Q) 0) with false by (symmetry; apply not_true_is_false; intros X; apply Qeq_bool_iff in X; rewrite Ea in X; discriminate X).
      replace (Qeq_bool (nth k (goff (garray (nth k v dgv))) 0%Q) 1) with true by (symmetry; apply Qeq_bool_iff; rewrite Ea; reflexivity).
      destruct (@backward_difference_spec_lem (nth k v dgv) k Hp) as (w & Ew & Pw); [rewrite Hg; exact Hk|]. exists w. split; [exact Ew|]. rewrite Hg in Pw.
      eapply prep_off; [|eapply prep_ext; [|exact Pw]].
      * eapply off_eq_trans; [apply off_eq_offs; [exact Hoff | reflexivity]|]. eapply off_eq_trans; [apply offs_offs|]. eapply off_eq_trans; [|apply offs_0]. apply off_eq_offs; [apply off_eq_refl | reflexivity].
      * intros ix _. rewrite !vval_nth by lia. reflexivity.
    + unfold offs in Ea. rewrite nth_upd_other, Hcc in Ea by (auto; lia).
      replace (Qeq_bool (nth a (goff (garray (nth k v dgv))) 0%Q) 0) with false by (symmetry; apply not_true_is_false; intros X; apply Qeq_bool_iff in X; rewrite Ea in X; discriminate X).
      replace (Qeq_bool (nth a (goff (garray (nth k v dgv))) 0%Q) 1) with false by (symmetry; apply not_true_is_false; intros X; apply Qeq_bool_iff in X; rewrite Ea in X; discriminate X).
      replace (Qeq_bool (nth a (goff (garray (nth k v dgv))) 0%Q) (1 # 2)) with true by (symmetry; apply Qeq_bool_iff; rewrite Ea; reflexivity).
      apply (@central_of_interp g (nth k v dgv) (fun ix => (vval v k (prev k ix) + vval v k ix) / 2)%R a (cell_center g) Hp Hg Ha Lc).
      intros ix HL. rewrite (@lerp_back (gshape g) (gndim g) (cell_center g) _ k _ Hoff) by (rewrite ?Lc; lia || exact HL).
      replace (k <? gndim g)%nat with true by (symmetry; apply Nat.ltb_lt; exact Hk). rewrite !vval_nth by lia. reflexivity.
  - exists col. split; [exact E|]. split; [exact L|]. intros a Ha. exact (P a dga Ha).
Qed.

(* @prop C69 gradient_tensor of a periodic velocity on the cell faces, in any number of dimensions: succeeds, and entry (a, k) lies at the cell centres and holds the derivative of component k along axis a: for a = k the difference of the two faces of the cell, for a <> k the central difference of the component averaged to the cell centres. *)
Lemma gradient_tensor_spec_lem : forall g v, (0 < gndim g)%nat -> periodic_vec g v -> face_aligned (cell_center g) v ->
  exists T, gradient_tensor v = Ok T /\ length T = gndim g /\
    forall a row, nth_error T a = Some row -> length row = gndim g /\ forall k w, nth_error row k = Some w ->
      is_field w g (cell_center g) (fun ix => if (a =? k)%nat then (vval v k ix - vval v k (prev k ix)) / hstep g k
        else ((vval v k (prev k (next a ix)) + vval v k (next a ix)) / 2 - (vval v k (prev k (prev a ix)) + vval v k (prev a ix)) / 2) / (2 * hstep g a))%R.
Proof.
  intros g v Hd Hv Hf. assert (HLv : length v = gndim g) by apply Hv. unfold gradient_tensor.
  set (P := fun a k ix => (if (a =? k)%nat then (vval v k ix - vval v k (prev k ix)) / hstep g k
        else ((vval v k (prev k (next a ix)) + vval v k (next a ix)) / 2 - (vval v k (prev k (prev a ix)) + vval v k (prev a ix)) / 2) / (2 * hstep g a))%R).
  destruct (@mapM_enum gvar (list garr) (fun iu => gradient_tensor1 (snd iu)) (fun k col => length col = gndim g /\ forall a, (a < gndim g)%nat -> prep g (cell_center g) (P a k) (nth a col dga)) v dgv) as (cols & E & L & H).
  { intros k Hk. cbn [snd]. destruct (@face_column g v k Hd Hv Hf) as (col & A & B & C); [lia|]. exists col. auto. }
  rewrite (mapM_enum_snd gradient_tensor1 v) in E. rewrite E. cbn [bind].
  assert (Hlen : forall c, In c cols -> length c = gndim g).
  { intros c Hc. destruct (In_nth _ _ [] Hc) as (k & Hk & <-). apply H. lia. }
  destruct cols as [|c0 cr]; [simpl in L; lia|]. set (cols := c0 :: cr) in *. assert (L0 : length c0 = gndim g) by (apply Hlen; left; reflexivity).
  replace (forallb _ cols) with true by (symmetry; apply forallb_forall; intros c Hc; rewrite (Hlen c Hc), L0; apply Nat.eqb_refl). rewrite L0.
  destruct (@mapM_seq (list garr) (fun axis => mapM (fun col => getM col axis) cols) (fun a row => length row = gndim g /\ forall k, (k < gndim g)%nat -> prep g (cell_center g) (P a k) (nth k row dga)) (gndim g)) as (T & ET & LT & HT).
  { intros a Ha. destruct (@mapM_enum (list garr) garr (fun ic => getM (snd ic) a) (fun k w => prep g (cell_center g) (P a k) w) cols []) as (row & Er & Lr & Hr).
    - intros k Hk. cbn [snd]. destruct (H k [] ltac:(lia)) as (A & B). unfold getM. rewrite (nth_error_nth' _ dga) by lia. eexists; split; [reflexivity | exact (B a Ha)].
    - rewrite (mapM_enum_snd (fun col => getM col a) cols) in Er. exists row. split; [exact Er|]. split; [lia|]. intros k Hk. apply Hr. lia. }
  exists T. split; [exact ET|]. split; [exact LT|]. intros a row Hrow. assert (Ha : (a < gndim g)%nat) by (rewrite <- LT; apply nth_error_Some; congruence).
  destruct (HT a [] Ha) as (A & B). rewrite (nth_error_nth _ _ _ Hrow) in A, B. split; [exact A|]. intros k w Hw. assert (Hk : (k < gndim g)%nat) by (rewrite <- A; apply nth_error_Some; congruence).
  specialize (B k Hk). rewrite (nth_error_nth _ _ _ Hw) in B. exact B.
Qed.

(* @prop C69 The trace of gradient_tensor of a velocity on the cell faces is its divergence, cell by cell. *)
Lemma gradient_trace_lem : forall g v T d, (0 < gndim g)%nat -> periodic_vec g v -> face_aligned (cell_center g) v -> gradient_tensor v = Ok T -> divergence v = Ok d ->
  forall ix, inb (gshape g) ix -> get (gdata d) ix = nsum (gndim g) (fun k => get (gdata (nth k (nth k T []) dga)) ix).
Proof.
  intros g v T d Hd Hv Hf ET Ed ix Hix. destruct (@gradient_tensor_spec_lem g v Hd Hv Hf) as (T' & ET' & LT & HT). rewrite ET in ET'. injection ET' as <-.
  destruct (@divergence_spec_lem g (cell_center g) v Hd Hv (repeat_length _ _) Hf) as (d' & Ed' & (_ & _ & _ & Vd)). rewrite Ed in Ed'. injection Ed' as <-. rewrite (Vd ix Hix).
  apply nsum_ext. intros k Hk. destruct (HT k (nth k T [])) as (L & H); [apply nth_error_nth'; lia|]. destruct (H k (nth k (nth k T []) dga)) as (_ & _ & _ & V); [apply nth_error_nth'; lia|].
  rewrite (V ix Hix), Nat.eqb_refl. reflexivity.
Qed.

(* @prop C69 In two dimensions the antisymmetric part of gradient_tensor of a velocity on the cell faces (entry (0,1) minus entry (1,0)) is curl_2d averaged over the four corners of each cell. *)
Lemma gradient_antisymmetric_part_lem : forall g v T c, gndim g = 2%nat -> periodic_vec g v -> face_aligned (cell_center g) v -> gradient_tensor v = Ok T -> curl_2d v = Ok c ->
  forall ix, inb (gshape g) ix ->
    (get (gdata (nth 1 (nth 0 T []) dga)) ix - get (gdata (nth 0 (nth 1 T []) dga)) ix =
     (pval c ix + pval c (prev 0 ix) + pval c (prev 1 ix) + pval c (prev 0 (prev 1 ix))) / 4)%R.
Proof.
  intros g v T c Hd Hv Hf ET Ec ix Hix. assert (Hd0 : (0 < gndim g)%nat) by lia. destruct (@gradient_tensor_spec_lem g v Hd0 Hv Hf) as (T' & ET' & LT & HT). rewrite ET in ET'. injection ET' as <-.
  assert (H0 : (0 < gndim g)%nat) by lia. assert (H1 : (1 < gndim g)%nat) by lia.
  assert (V01 := HT 0%nat (nth 0 T []) ltac:(apply nth_error_nth'; lia)). assert (V10 := HT 1%nat (nth 1 T []) ltac:(apply nth_error_nth'; lia)). destruct V01 as (L0 & V01). destruct V10 as (L1 & V10).
  specialize (V01 1%nat (nth 1 (nth 0 T []) dga) ltac:(apply nth_error_nth'; lia)). specialize (V10 0%nat (nth 0 (nth 1 T []) dga) ltac:(apply nth_error_nth'; lia)).
  destruct V01 as (_ & _ & _ & V01). destruct V10 as (_ & _ & _ & V10). rewrite (V01 ix Hix), (V10 ix Hix). cbn [Nat.eqb].
  assert (HLv : length v = 2%nat) by (rewrite (proj1 Hv); exact Hd). destruct v as [|v0 [|v1 [|? ?]]]; try discriminate. clear HLv.
  set (v := [v0; v1]) in *. unfold curl_2d in Ec. change [v0; v1] with v in Ec. 
  destruct (periodic_vec_nth Hv H0) as (P0 & G0). destruct (periodic_vec_nth Hv H1) as (P1 & G1). cbn [nth v] in P0, G0, P1, G1.
  unfold v in Ec. fold v in Ec. rewrite (pvec_grid Hd0 Hv) in Ec. cbn [bind] in Ec. rewrite Hd in Ec. cbn [Nat.eqb negb] in Ec.
  destruct (@forward_difference_spec_lem v1 0 P1) as (a & Ea & Pa); [rewrite G1; exact H0|]. destruct (@forward_difference_spec_lem v0 1 P0) as (b & Eb & Pb); [rewrite G0; exact H1|].
  rewrite Ea, Eb in Ec. cbn [bind] in Ec. rewrite G1 in Pa. rewrite G0 in Pb.
  pose proof (face_nth Hv Hf H0) as F0. pose proof (face_nth Hv Hf H1) as F1. cbn [nth v] in F0, F1.
  eapply (prep_off (p := offs 0 (1 # 2) (offs 1 (1 # 2) (cell_center g)))) in Pa; [|apply off_eq_offs; [exact F1 | reflexivity]].
  eapply (prep_off (p := offs 0 (1 # 2) (offs 1 (1 # 2) (cell_center g)))) in Pb; [|eapply off_eq_trans; [apply off_eq_offs; [exact F0 | reflexivity] | apply offs_comm]].
  destruct (prep_op2 Rminus Pa Pb) as (c' & Ec' & Pc). unfold ga_sub in Ec. rewrite Ec' in Ec. injection Ec as <-.
  set (C := fun jx => ((vval v 1 (next 0 jx) - vval v 1 jx) / hstep g 0 - (vval v 0 (next 1 jx) - vval v 0 jx) / hstep g 1)%R).
  assert (HC : prep g (offs 0 (1 # 2) (offs 1 (1 # 2) (cell_center g))) C c') by exact Pc.
  assert (HperC : periodic (gshape g) C).
  { intros jx HLj. pose proof (periodic_fdF g 0 (periodic_vval Hv H1) jx HLj) as A1. pose proof (periodic_fdF g 1 (periodic_vval Hv H0) jx HLj) as A0. unfold fdF in A1, A0. unfold C, next. rewrite A1, A0. reflexivity. }
  pose proof (periodic_vec_wfg Hd0 Hv) as Hw. pose proof (inb_length _ _ Hix) as HL.
  assert (HV : forall jx, length jx = gndim g -> pval c' jx = C jx).
  { intros jx HLj. apply (@pval_prep g (offs 0 (1 # 2) (offs 1 (1 # 2) (cell_center g))) C c' jx); auto. apply Hw. }
  unfold prev, next in *. rewrite !HV by (rewrite ?shiftix_length; exact HL). unfold C, next. rewrite !(shiftix_comm 0 1).
  pose proof (proj2 (proj2 (proj2 Hw))) as Hst. rewrite Forall_forall in Hst.
  assert (N0 : hstep g 0 <> 0%R) by (unfold hstep; apply Hst; apply nth_In; rewrite (proj1 Hw); exact H0). assert (N1 : hstep g 1 <> 0%R) by (unfold hstep; apply Hst; apply nth_In; rewrite (proj1 Hw); exact H1).
  rewrite !shiftix_add. rewrite ?(shiftix_comm 0 1), ?shiftix_add. cbn [Z.add Z.pos_sub Z.opp]. rewrite ?shiftix_0.
  field. auto.
Qed.

Lemma mapM_evalue {X Y} (f : X -> result Y) l : (forall x, In x l -> (exists y, f x = Ok y) \/ f x = Err EValue) -> (exists x, In x l /\ f x = Err EValue) -> mapM f l = Err EValue.
Proof.
  induction l as [|a l IH]; intros H (x & Hx & Ex); [destruct Hx|]. cbn [mapM]. destruct (H a (or_introl eq_refl)) as [(y & Ey)|Ey]; rewrite Ey; cbn [bind]; [|reflexivity].
  rewrite IH; [reflexivity | intros z Hz; apply H; right; exact Hz|]. destruct Hx as [<-|Hx]; [congruence | exists x; auto].
Qed.
(* @prop C69 gradient_tensor of one periodic variable, at any offset: it succeeds exactly when every entry of the offset is 0, 1/2 or 1, and raises ValueError otherwise. *)
Lemma gradient_tensor_offsets_lem : forall u, periodic_field u ->
  ((forall a, (a < gndim (ggrid (garray u)))%nat -> (nth a (goff (garray u)) 0 == 0 \/ nth a (goff (garray u)) 0 == 1 # 2 \/ nth a (goff (garray u)) 0 == 1)%Q) ->
     exists l, gradient_tensor1 u = Ok l /\ length l = gndim (ggrid (garray u))) /\
  (forall a, (a < gndim (ggrid (garray u)))%nat -> ~ (nth a (goff (garray u)) 0 == 0 \/ nth a (goff (garray u)) 0 == 1 # 2 \/ nth a (goff (garray u)) 0 == 1)%Q ->
     gradient_tensor1 u = Err EValue).
Proof.
  intros u Hu. pose proof (pf_off Hu) as Lo. set (g := ggrid (garray u)) in *. unfold gradient_tensor1. fold g.
  set (f := fun axis => let* offset := getM (goff (garray u)) axis in
      if Qeq_bool offset 0 then forward_difference u axis else if Qeq_bool offset 1 then backward_difference u axis
      else if Qeq_bool offset (1 # 2) then let* v_centered := linear_interp u (cell_center g) in central_difference v_centered axis else Err EValue).
  assert (Hok : forall a, (a < gndim g)%nat -> (nth a (goff (garray u)) 0 == 0 \/ nth a (goff (garray u)) 0 == 1 # 2 \/ nth a (goff (garray u)) 0 == 1)%Q -> exists w, f a = Ok w).
  { intros a Ha Hcase. unfold f, getM. rewrite (nth_error_nth' _ 0%Q) by (rewrite Lo; exact Ha). cbn [bind].
    destruct (Qeq_bool (nth a (goff (garray u)) 0%Q) 0) eqn:E0; [destruct (@forward_difference_spec_lem u a Hu Ha) as (w & E & _); exists w; exact E|].
    destruct (Qeq_bool (nth a (goff (garray u)) 0%Q) 1) eqn:E1; [destruct (@backward_difference_spec_lem u a Hu Ha) as (w & E & _); exists w; exact E|].
    destruct (Qeq_bool (nth a (goff (garray u)) 0%Q) (1 # 2)) eqn:E2.
    - destruct (@central_of_interp g u (lerp (gndim g) (goff (garray u)) (cell_center g) (pval (garray u))) a (cell_center g) Hu eq_refl Ha (repeat_length _ _)) as (w & E & _); [reflexivity|]. exists w. exact E.
    - exfalso. destruct Hcase as [H|[H|H]]; apply Qeq_bool_iff in H; congruence. }
  assert (Hbad : forall a, (a < gndim g)%nat -> ~ (nth a (goff (garray u)) 0 == 0 \/ nth a (goff (garray u)) 0 == 1 # 2 \/ nth a (goff (garray u)) 0 == 1)%Q -> f a = Err EValue).
  { intros a Ha Hcase. unfold f, getM. rewrite (nth_error_nth' _ 0%Q) by (rewrite Lo; exact Ha). cbn [bind].
    destruct (Qeq_bool (nth a (goff (garray u)) 0%Q) 0) eqn:E0; [apply Qeq_bool_iff in E0; tauto|]. destruct (Qeq_bool (nth a (goff (garray u)) 0%Q) 1) eqn:E1; [apply Qeq_bool_iff in E1; tauto|].
    destruct (Qeq_bool (nth a (goff (garray u)) 0%Q) (1 # 2)) eqn:E2; [apply Qeq_bool_iff in E2; tauto | reflexivity]. }
  split.
  - intros H. destruct (@mapM_seq garr f (fun _ _ => True) (gndim g)) as (l & E & L & _); [intros a Ha; destruct (Hok a Ha (H a Ha)) as (w & Ew); exists w; auto|]. exists l. auto.
  - intros a Ha Hn. apply mapM_evalue; [|exists a; split; [apply in_seq; lia | exact (Hbad a Ha Hn)]].
    intros b Hb. apply in_seq in Hb. destruct Hb as (_ & Hb). cbn [plus] in Hb.
    destruct (Qeq_dec (nth b (goff (garray u)) 0%Q) 0) as [H|H0]; [left; apply Hok; auto|]. destruct (Qeq_dec (nth b (goff (garray u)) 0%Q) (1 # 2)) as [H|H1]; [left; apply Hok; auto|].
    destruct (Qeq_dec (nth b (goff (garray u)) 0%Q) 1) as [H|H2]; [left; apply Hok; auto|]. right. apply Hbad; [exact Hb | tauto].
Qed.

Definition corner_u : gvar := mkgv (mkga (gdata (garray (nth 0 p34v dgv))) [1%Q; 1%Q] p34g) (periodic_bc 2).
Lemma corner_periodic : periodic_field corner_u.
Proof.
  assert (H : periodic_field (nth 0 p34v dgv)) by (apply (@periodic_vec_nth p34g p34v 0); [apply p34_pv | cbn; lia]).
  destruct H as ((W & S & O) & B). split; [|reflexivity]. split; [exact W|]. split; [exact S | reflexivity].
Qed.
(* @prop C69 gradient_tensor does not always return the cell-centred gradient its documentation promises: for a variable at the cell corners (offset 1 on every axis, or 0) it succeeds but its entries are not at the cell centres. *)
Lemma gradient_tensor_corner_refuted_lem : ~ (forall u l w, periodic_field u -> gradient_tensor1 u = Ok l -> In w l -> off_eq (goff w) (cell_center (ggrid (garray u)))).
Proof.
  intros H. pose proof corner_periodic as Hu. destruct (proj1 (@gradient_tensor_offsets_lem corner_u Hu)) as (l & E & L).
  { intros a Ha. right; right. destruct a as [|[|a]]; [reflexivity | reflexivity | cbn in Ha; lia]. }
  destruct (@backward_difference_spec_lem corner_u 0 Hu) as (w & Ew & (_ & Ow & _)); [cbn; lia|].
  assert (Hin : In w l).
  { assert (E' := E). unfold gradient_tensor1 in E'. change (gndim (ggrid (garray corner_u))) with 2%nat in E'. cbn [seq mapM] in E'. change (getM (goff (garray corner_u)) 0) with (Ok 1%Q) in E'. cbn [bind Qeq_bool Qnum Qden Z.mul Pos.mul Zeq_bool Z.compare Pos.compare Pos.compare_cont] in E'.
    rewrite Ew in E'. cbn [bind] in E'. change (getM (goff (garray corner_u)) 1) with (Ok 1%Q) in E'. cbn [bind Qeq_bool Qnum Qden Z.mul Pos.mul Zeq_bool Z.compare Pos.compare Pos.compare_cont] in E'.
    destruct (backward_difference corner_u 1) as [w1|e] eqn:E1; [|discriminate E']. cbn [bind] in E'. injection E' as <-. left. reflexivity. }
  specialize (H corner_u l w Hu E Hin). pose proof (off_eq_nth 1 (off_eq_trans (off_eq_sym Ow) H)) as X. cbv in X. discriminate X.
Qed.

(** ** examples *)
Lemma p34_face : face_aligned (cell_center p34g) p34v.
Proof. apply p34_pv. Qed.
(* @ex *)
Lemma gradient_tensor_spec_ex_lem : (0 < gndim p34g)%nat /\ periodic_vec p34g p34v /\ face_aligned (cell_center p34g) p34v /\ exists T, gradient_tensor p34v = Ok T.
Proof.
  assert (Hd : (0 < gndim p34g)%nat) by (cbn; lia). split; [exact Hd|]. split; [apply p34_pv|]. split; [exact p34_face|].
  destruct (@gradient_tensor_spec_lem p34g p34v Hd) as (T & E & _); [apply p34_pv | exact p34_face | exists T; exact E].
Qed.
(* @ex *)
Lemma gradient_trace_ex_lem : exists T d, (0 < gndim p34g)%nat /\ periodic_vec p34g p34v /\ face_aligned (cell_center p34g) p34v /\ gradient_tensor p34v = Ok T /\ divergence p34v = Ok d.
Proof.
  destruct gradient_tensor_spec_ex_lem as (A & B & C & T & E). destruct (@divergence_spec_lem p34g (cell_center p34g) p34v A B eq_refl C) as (d & Ed & _). exists T, d. auto.
Qed.
(* @ex *)
Lemma gradient_antisymmetric_part_ex_lem : exists T c, gndim p34g = 2%nat /\ periodic_vec p34g p34v /\ face_aligned (cell_center p34g) p34v /\ gradient_tensor p34v = Ok T /\ curl_2d p34v = Ok c.
Proof.
  destruct gradient_tensor_spec_ex_lem as (A & B & C & T & E).
  assert (Hc : exists c, curl_2d p34v = Ok c); [|destruct Hc as (c & Ec); exists T, c; auto].
  assert (H0 : (0 < gndim p34g)%nat) by (cbn; lia). assert (H1 : (1 < gndim p34g)%nat) by (cbn; lia). unfold curl_2d. pose proof (pvec_grid A B) as G.
  destruct (periodic_vec_nth B H0) as (P0 & G0). destruct (periodic_vec_nth B H1) as (P1 & G1). pose proof (face_nth B C H0) as F0. pose proof (face_nth B C H1) as F1.
  unfold p34v in *. rewrite G. cbn [bind nth] in *. change (gndim p34g) with 2%nat. cbn [Nat.eqb negb].
  match goal with |- context [forward_difference ?x 0] => destruct (@forward_difference_spec_lem x 0 P1) as (a & Ea & Pa); [rewrite G1; exact H0|] end.
  match goal with |- context [forward_difference ?x 1] => destruct (@forward_difference_spec_lem x 1 P0) as (b & Eb & Pb); [rewrite G0; exact H1|] end.
  rewrite Ea, Eb. cbn [bind]. rewrite G1 in Pa. rewrite G0 in Pb.
  eapply (prep_off (p := offs 0 (1 # 2) (offs 1 (1 # 2) (cell_center p34g)))) in Pa; [|apply off_eq_offs; [exact F1 | reflexivity]].
  eapply (prep_off (p := offs 0 (1 # 2) (offs 1 (1 # 2) (cell_center p34g)))) in Pb; [|eapply off_eq_trans; [apply off_eq_offs; [exact F0 | reflexivity] | apply offs_comm]].
  destruct (prep_op2 Rminus Pa Pb) as (c & Ec & _). exists c. exact Ec.
Qed.
(* @ex *)
Lemma gradient_tensor_offsets_ex_lem : periodic_field corner_u /\ periodic_field (mkgv (mkga (gdata (garray corner_u)) [1 # 4; 1]%Q p34g) (periodic_bc 2)) /\
  ~ (nth 0 [1 # 4; 1] 0 == 0 \/ nth 0 [1 # 4; 1] 0 == 1 # 2 \/ nth 0 [1 # 4; 1] 0 == 1)%Q.
Proof.
  split; [exact corner_periodic|]. split; [|cbn; intros [H|[H|H]]; discriminate H].
  destruct corner_periodic as ((W & S & O) & B). split; [|reflexivity]. split; [exact W|]. split; [exact S | reflexivity].
Qed.
