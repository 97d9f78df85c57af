(** * Properties C12, C13: inferred boundary conditions *)
From Verif Require Import Prelude NdArr Grids_model Spec Boundaries_model.
Set Implicit Arguments.
Local Open Scope Z_scope.

Lemma is_periodic_lower c a : is_periodic_bc c a = true <-> lower_periodic (gbc c) a.
Proof.
  unfold is_periodic_bc, lower_periodic, side_type, btype.
  destruct (nth_error (btypes (gbc c)) a) as [[t1 t2]|] eqn:E.
  - rewrite (nth_error_nth _ _ _ E). simpl. destruct t1; simpl; split; intros H; try discriminate; auto.
  - rewrite nth_overflow by (apply nth_error_None; auto). simpl. split; discriminate.
Qed.

Lemma mapM_Err {A B} (f : A -> result B) (e : err) l :
  (forall x, In x l -> f x = Err e \/ exists y, f x = Ok y) -> (exists x, In x l /\ f x = Err e) -> mapM f l = Err e.
Proof.
  induction l as [|x l IH]; intros H [y [Hy Hf]]; [destruct Hy|]. cbn [mapM].
  destruct (H x) as [E|[z E]]; [left; auto | rewrite E; reflexivity |]. rewrite E. cbn [bind].
  destruct Hy as [->|Hy]; [congruence|]. rewrite IH; [reflexivity | intros; apply H; right; auto | eauto].
Qed.

(* @prop C12 Pressure boundary conditions from a velocity (any number of components, any number of axes): if on every axis all components are periodic or none is, the result is homogeneous, periodic on the former axes and Neumann on the latter. *)
Lemma pressure_bc_consistent_lem : forall u0 v,
  (forall a, (a < gndim (ggrid (garray u0)))%nat ->
     (forall u, In u (u0 :: v) -> lower_periodic (gbc u) a) \/ (forall u, In u (u0 :: v) -> ~ lower_periodic (gbc u) a)) ->
  exists r, pressure_bc_from_velocity (u0 :: v) = Ok r /\ bhom r = true /\
    length (btypes r) = gndim (ggrid (garray u0)) /\
    forall a, (a < gndim (ggrid (garray u0)))%nat ->
      nth_error (bvals r) a = Some (Some 0%R, Some 0%R) /\
      (lower_periodic (gbc u0) a -> nth_error (btypes r) a = Some (Periodic, Periodic)) /\
      (~ lower_periodic (gbc u0) a -> nth_error (btypes r) a = Some (Neumann, Neumann)).
Proof.
  intros u0 v H. set (d := gndim (ggrid (garray u0))) in *.
  assert (E : consistent_bc (u0 :: v) = Ok (map (is_periodic_bc u0) (seq 0 d))).
  { unfold consistent_bc. fold d. apply mapM_Ok. intros a Ha. apply in_seq in Ha.
    replace (forallb _ v) with true; [reflexivity|]. symmetry. apply forallb_forall. intros c Hc.
    apply eqb_true_iff. apply eq_true_iff_eq. rewrite !is_periodic_lower.
    destruct (H a) as [Hall|Hnone]; [lia| |].
    - split; intros _; apply Hall; [left | right]; auto.
    - split; intros Hx; exfalso; revert Hx; apply Hnone; [right | left]; auto. }
  unfold pressure_bc_from_velocity. rewrite E. cbn [bind]. eexists. split; [reflexivity|].
  split; [reflexivity|]. cbn [btypes bvals homogeneous]. rewrite !map_length, seq_length. split; [reflexivity|].
  intros a Ha. split.
  - rewrite nth_error_repeat by (rewrite ?map_length, ?seq_length; auto). reflexivity.
  - assert (En : nth_error (map (fun p : bool => if p then (Periodic, Periodic) else (Neumann, Neumann)) (map (is_periodic_bc u0) (seq 0 d))) a
        = Some (if is_periodic_bc u0 a then (Periodic, Periodic) else (Neumann, Neumann))).
    { rewrite map_map. erewrite map_nth_error with (d := a); [reflexivity|].
      rewrite (nth_error_nth' _ 0%nat) by (rewrite seq_length; auto). rewrite seq_nth by auto. reflexivity. }
    rewrite En. split; intros Hp.
    + apply is_periodic_lower in Hp. rewrite Hp. reflexivity.
    + destruct (is_periodic_bc u0 a) eqn:Eq; [|reflexivity]. exfalso. apply Hp, is_periodic_lower, Eq.
Qed.

Definition ibg : grid := mkgrid [2%nat; 3%nat] [1%R; 1%R] [(0%R, 2%R); (0%R, 3%R)].
Definition ibv (b : bcs) : gvar := mkgv (mkga (afull [2%nat; 3%nat] 1%R) [(1 # 2)%Q; (1 # 2)%Q] ibg) b.

(* @ex *)
Lemma pressure_bc_consistent_ex_lem :
  exists r, pressure_bc_from_velocity [ibv (channel_flow_bc 2 None); ibv (channel_flow_bc 2 (Some [(None, None); (Some 1%R, Some 2%R)]))] = Ok r /\
   btypes r = [(Periodic, Periodic); (Neumann, Neumann)] /\ bvals r = [(Some 0%R, Some 0%R); (Some 0%R, Some 0%R)].
Proof. eexists. split; [reflexivity|]. split; reflexivity. Qed.

(* @prop C12 If on some axis one component is periodic and another is not, the inference raises the inconsistency error (and does not return a boundary condition). *)
Lemma pressure_bc_mixed_raises_lem : forall u0 v a u1 u2,
  (a < gndim (ggrid (garray u0)))%nat -> In u1 (u0 :: v) -> In u2 (u0 :: v) ->
  lower_periodic (gbc u1) a -> ~ lower_periodic (gbc u2) a ->
  pressure_bc_from_velocity (u0 :: v) = Err EBC.
Proof.
  intros u0 v a u1 u2 Ha H1 H2 P1 P2. unfold pressure_bc_from_velocity, consistent_bc.
  rewrite mapM_Err with (e := EBC); [reflexivity| |].
  - intros x _. destruct (forallb _ v); [right; eexists; reflexivity | left; reflexivity].
  - exists a. split; [apply in_seq; lia|]. replace (forallb _ v) with false; [reflexivity|].
    symmetry. apply not_true_iff_false. rewrite forallb_forall. intros Hall.
    assert (Heq : forall c, In c (u0 :: v) -> is_periodic_bc c a = is_periodic_bc u0 a).
    { intros c [<-|Hc]; [reflexivity|]. apply eqb_true_iff. apply Hall; auto. }
    apply P2. apply is_periodic_lower. rewrite (Heq _ H2), <- (Heq _ H1). apply is_periodic_lower, P1.
Qed.

(* @ex *)
Lemma pressure_bc_mixed_raises_ex_lem :
  pressure_bc_from_velocity [ibv (channel_flow_bc 2 None); ibv (periodic_bc 2)] = Err EBC.
Proof.
  apply (@pressure_bc_mixed_raises_lem _ _ 1%nat (ibv (periodic_bc 2)) (ibv (channel_flow_bc 2 None))).
  - unfold gndim; simpl; lia.
  - right; left; reflexivity.
  - left; reflexivity.
  - reflexivity.
  - discriminate.
Qed.

(** ** C13 *)
Lemma side_lower b a t : side_type b a false = Some t -> fst (btype b a) = t.
Proof.
  unfold side_type, btype. destruct (nth_error (btypes b) a) as [[t1 t2]|] eqn:E; [|discriminate].
  rewrite (nth_error_nth _ _ _ E). simpl. congruence.
Qed.
Lemma side_upper b a t : side_type b a true = Some t -> snd (btype b a) = t.
Proof.
  unfold side_type, btype. destruct (nth_error (btypes b) a) as [[t1 t2]|] eqn:E; [|discriminate].
  rewrite (nth_error_nth _ _ _ E). simpl. congruence.
Qed.
Lemma side_lower_inv b a t : fst (btype b a) = t -> t <> BCOther -> side_type b a false = Some t.
Proof.
  unfold side_type, btype. destruct (nth_error (btypes b) a) as [[t1 t2]|] eqn:E.
  - rewrite (nth_error_nth _ _ _ E). simpl. congruence.
  - rewrite nth_overflow by (apply nth_error_None; auto). simpl. congruence.
Qed.
Lemma side_upper_inv b a t : snd (btype b a) = t -> t <> BCOther -> side_type b a true = Some t.
Proof.
  unfold side_type, btype. destruct (nth_error (btypes b) a) as [[t1 t2]|] eqn:E.
  - rewrite (nth_error_nth _ _ _ E). simpl. congruence.
  - rewrite nth_overflow by (apply nth_error_None; auto). simpl. congruence.
Qed.
Lemma val_lower b a x : side_value b a false = Some (Some x) <-> fst (bval b a) = Some x.
Proof.
  unfold side_value, bval. destruct (nth_error (bvals b) a) as [[t1 t2]|] eqn:E.
  - rewrite (nth_error_nth _ _ _ E). simpl. split; congruence.
  - rewrite nth_overflow by (apply nth_error_None; auto). simpl. split; congruence.
Qed.
Lemma val_upper b a x : side_value b a true = Some (Some x) <-> snd (bval b a) = Some x.
Proof.
  unfold side_value, bval. destruct (nth_error (bvals b) a) as [[t1 t2]|] eqn:E.
  - rewrite (nth_error_nth _ _ _ E). simpl. split; congruence.
  - rewrite nth_overflow by (apply nth_error_None; auto). simpl. split; congruence.
Qed.

Definition pick {A} (i : bool) (p : A * A) : A := if i then snd p else fst p.
Lemma side_pick b a i t : t <> BCOther -> (side_type b a i = Some t <-> pick i (btype b a) = t).
Proof. intros Ht. destruct i; cbn [pick]; split; intros H; [apply side_upper | apply side_upper_inv | apply side_lower | apply side_lower_inv]; auto. Qed.
Lemma val_pick b a i x : side_value b a i = Some (Some x) <-> pick i (bval b a) = Some x.
Proof. destruct i; [apply val_upper | apply val_lower]. Qed.

Lemma risclose0 x : risclose x 0 = true <-> (Rabs x <= 1 / 100000000)%R.
Proof.
  unfold risclose. rewrite Rminus_0_r, Rabs_R0, Rmult_0_r, Rplus_0_r.
  destruct (Rle_dec _ _); split; intros; auto; try discriminate; contradiction.
Qed.

Lemma flux_side_Ok bu bc a i t : flux_condition bu bc a i t ->
  flux_side (pick i (btype bu a)) (pick i (btype bc a)) (pick i (bval bu a)) (pick i (bval bc a)) = Ok (t, Some 0%R).
Proof.
  intros [(H1 & H2 & ->)|(H1 & H2 & -> & x & H3 & H4)].
  - apply side_pick in H1; [|discriminate]. apply val_pick in H2. unfold flux_side. rewrite H1, H2.
    cbn. destruct (Req_EM_T 0 0); [reflexivity | congruence].
  - apply side_pick in H1; [|discriminate]. apply side_pick in H2; [|discriminate]. apply val_pick in H3.
    unfold flux_side. rewrite H1, H2, H3. cbn. apply risclose0 in H4. rewrite H4. reflexivity.
Qed.

Lemma flux_side_inv bu bc a i t w :
  flux_side (pick i (btype bu a)) (pick i (btype bc a)) (pick i (bval bu a)) (pick i (bval bc a)) = Ok (t, w) ->
  flux_condition bu bc a i t /\ w = Some 0%R.
Proof.
  unfold flux_side. destruct (isDir _ && _) eqn:E1.
  - intros H. injection H as <- <-. split; [|reflexivity]. left. apply andb_true_iff in E1. destruct E1 as [A B].
    destruct (pick i (bval bu a)) as [x|] eqn:Ev; [|discriminate]. destruct (Req_EM_T x 0) as [->|]; [|discriminate].
    split; [|split; [apply val_pick; auto | reflexivity]]. apply side_pick; [discriminate|].
    destruct (pick i (btype bu a)); try discriminate; reflexivity.
  - destruct (isNeu _ && isNeu _) eqn:E2; [|discriminate].
    destruct (pick i (bval bc a)) as [x|] eqn:Ev; [|discriminate]. destruct (risclose x 0) eqn:Er; [|discriminate].
    intros H. injection H as <- <-. split; [|reflexivity]. right. apply andb_true_iff in E2. destruct E2 as [A B].
    split; [apply side_pick; [discriminate|]; destruct (pick i (btype bu a)); try discriminate; reflexivity|].
    split; [apply side_pick; [discriminate|]; destruct (pick i (btype bc a)); try discriminate; reflexivity|].
    split; [reflexivity|]. exists x. split; [apply val_pick; auto | apply risclose0; auto].
Qed.

Definition flux_axis (u c : gvar) (dir ax : nat) : result ((bctype * bctype) * (option R * option R)) :=
  if isPer (fst (btype (gbc u) ax)) then Ok ((Periodic, Periodic), (None, None))
  else if negb (dir =? ax)%nat then Ok ((Dirichlet, Dirichlet), (Some 0%R, Some 0%R))
  else
    let* lo := flux_side (fst (btype (gbc u) ax)) (fst (btype (gbc c) ax))
                         (fst (bval (gbc u) ax)) (fst (bval (gbc c) ax)) in
    let* hi := flux_side (snd (btype (gbc u) ax)) (snd (btype (gbc c) ax))
                         (snd (bval (gbc u) ax)) (snd (bval (gbc c) ax)) in
    Ok ((fst lo, fst hi), (snd lo, snd hi)).
Lemma advection_flux_bc_unfold u c dir : advection_flux_bc u c dir =
  if negb (bhom (gbc u)) then Err ENotImpl
  else let* l := mapM (flux_axis u c dir) (seq 0 (gndim (ggrid (garray c)))) in
       Ok (constant_bc (map fst l) (map snd l)).
Proof. reflexivity. Qed.

Lemma nth_error_seq d a : (a < d)%nat -> nth_error (seq 0 d) a = Some a.
Proof. intros H. rewrite (nth_error_nth' _ 0%nat) by (rewrite seq_length; auto). rewrite seq_nth by auto. reflexivity. Qed.

(* @prop C13 Whenever a flux boundary condition is returned, the velocity's conditions are homogeneous and on every axis: periodic where the velocity is; zero Dirichlet on the other axes across the flux; and along the flux each side is zero Dirichlet at a no-penetration wall or zero Neumann between zero-gradient velocity and scalar, never anything else. *)
Lemma flux_bc_sound_lem : forall u c dir r,
  advection_flux_bc u c dir = Ok r ->
  bhom (gbc u) = true /\ length (btypes r) = gndim (ggrid (garray c)) /\
  forall a, (a < gndim (ggrid (garray c)))%nat ->
    (lower_periodic (gbc u) a -> nth_error (btypes r) a = Some (Periodic, Periodic)) /\
    (~ lower_periodic (gbc u) a -> a <> dir ->
       nth_error (btypes r) a = Some (Dirichlet, Dirichlet) /\ nth_error (bvals r) a = Some (Some 0%R, Some 0%R)) /\
    (~ lower_periodic (gbc u) a -> a = dir ->
       exists t1 t2, nth_error (btypes r) a = Some (t1, t2) /\ nth_error (bvals r) a = Some (Some 0%R, Some 0%R) /\
         flux_condition (gbc u) (gbc c) a false t1 /\ flux_condition (gbc u) (gbc c) a true t2).
Proof.
  intros u c dir r H. rewrite advection_flux_bc_unfold in H. destruct (bhom (gbc u)) eqn:Eh; [|discriminate].
  cbn [negb] in H. apply bind_Ok_inv in H. destruct H as (l & Hl & Hr). injection Hr as <-.
  apply mapM_Ok_inv in Hl. pose proof (Forall2_length' Hl) as HL. rewrite seq_length in HL.
  split; [reflexivity|]. cbn [btypes bvals constant_bc]. rewrite map_length. split; [auto|].
  intros a Ha.
  assert (Hn : exists y, nth_error l a = Some y /\ flux_axis u c dir a = Ok y).
  { destruct (nth_error l a) as [y|] eqn:Ey; [|apply nth_error_None in Ey; lia]. exists y. split; [reflexivity|].
    pose proof (@Forall2_nth' _ _ _ _ _ a 0%nat y Hl) as G. rewrite seq_length, seq_nth in G by auto.
    rewrite (nth_error_nth _ _ _ Ey) in G. apply G; auto. }
  destruct Hn as (y & Hy & Hf). rewrite (map_nth_error _ _ _ Hy), (map_nth_error _ _ _ Hy).
  unfold flux_axis in Hf. fold (is_periodic_bc u a) in Hf. destruct (is_periodic_bc u a) eqn:Ep.
  - apply is_periodic_lower in Ep. injection Hf as <-. split; [reflexivity|]. split; intros Hnp; contradiction.
  - assert (Hnp : ~ lower_periodic (gbc u) a) by (rewrite <- is_periodic_lower, Ep; discriminate).
    split; [intros; contradiction|]. destruct (Nat.eqb_spec dir a) as [->|Hne]; cbn [negb] in Hf.
    + split; [intros _ Hx; congruence|]. intros _ _.
      apply bind_Ok_inv in Hf. destruct Hf as ([t1 w1] & H1 & Hf).
      apply bind_Ok_inv in Hf. destruct Hf as ([t2 w2] & H2 & Hf). injection Hf as <-.
      apply (@flux_side_inv _ _ a false) in H1. apply (@flux_side_inv _ _ a true) in H2.
      destruct H1 as [H1 ->], H2 as [H2 ->]. exists t1, t2. auto.
    + injection Hf as <-. split; [auto|]. intros _ Hx; congruence.
Qed.

(* @prop C13 Conversely a flux boundary condition is returned whenever the velocity's conditions are homogeneous and, if the flux axis is not periodic, both its sides are of one of the two supported kinds. *)
Lemma flux_bc_complete_lem : forall u c dir,
  bhom (gbc u) = true ->
  ((dir < gndim (ggrid (garray c)))%nat -> ~ lower_periodic (gbc u) dir ->
     (exists t, flux_condition (gbc u) (gbc c) dir false t) /\ (exists t, flux_condition (gbc u) (gbc c) dir true t)) ->
  exists r, advection_flux_bc u c dir = Ok r.
Proof.
  intros u c dir Hh Hd. rewrite advection_flux_bc_unfold, Hh. cbn [negb].
  assert (Hall : forall a, In a (seq 0 (gndim (ggrid (garray c)))) -> exists y, flux_axis u c dir a = Ok y).
  { intros a Ha. apply in_seq in Ha. unfold flux_axis. fold (is_periodic_bc u a).
    destruct (is_periodic_bc u a) eqn:Ep; [eexists; reflexivity|].
    destruct (Nat.eqb_spec dir a) as [->|Hne]; cbn [negb]; [|eexists; reflexivity].
    destruct Hd as [[t1 F1] [t2 F2]]; [lia | rewrite <- is_periodic_lower, Ep; discriminate |].
    apply flux_side_Ok in F1. apply flux_side_Ok in F2. cbn [pick] in F1, F2. rewrite F1, F2. eexists; reflexivity. }
  revert Hall. generalize (seq 0 (gndim (ggrid (garray c)))). intros l Hall.
  assert (exists ys, mapM (flux_axis u c dir) l = Ok ys) as (ys & ->).
  { induction l as [|x l IH]; [eexists; reflexivity|]. cbn [mapM]. destruct (Hall x) as [y ->]; [left; auto|].
    destruct IH as [ys ->]; [intros; apply Hall; right; auto|]. eexists; reflexivity. }
  eexists; reflexivity.
Qed.

Lemma ib_dirichlet i c : flux_condition (channel_flow_bc 2 None) c 1 i Dirichlet.
Proof. left. destruct i; repeat split. Qed.
Lemma ib_neumann i : flux_condition (neumann_bc 2 None) (neumann_bc 2 (Some [(Some 0%R, Some 0%R); (Some 1%R, Some (1 / 1000000000)%R)])) 0 i Neumann.
Proof.
  right. destruct i; repeat split; (eexists; split; [reflexivity|]); rewrite Rabs_R0; lra.
Qed.

(* @ex *)
Lemma flux_bc_complete_ex_lem :
  exists r, advection_flux_bc (ibv (neumann_bc 2 None)) (ibv (neumann_bc 2 (Some [(Some 0%R, Some 0%R); (Some 1%R, Some (1 / 1000000000)%R)]))) 0 = Ok r.
Proof.
  apply flux_bc_complete_lem; [reflexivity|]. intros _ _. split; exists Neumann; apply ib_neumann.
Qed.

(* @ex *)
Lemma flux_bc_sound_ex_lem :
  exists r, advection_flux_bc (ibv (channel_flow_bc 2 None)) (ibv (dirichlet_bc 2 (Some [(Some 1%R, Some 2%R); (Some 3%R, Some 4%R)]))) 1 = Ok r /\
    btypes r = [(Periodic, Periodic); (Dirichlet, Dirichlet)] /\ nth_error (bvals r) 1 = Some (Some 0%R, Some 0%R).
Proof.
  destruct (@flux_bc_complete_lem (ibv (channel_flow_bc 2 None)) (ibv (dirichlet_bc 2 (Some [(Some 1%R, Some 2%R); (Some 3%R, Some 4%R)]))) 1) as [r E].
  { reflexivity. } { intros _ _. split; exists Dirichlet; apply ib_dirichlet. }
  destruct (@flux_bc_sound_lem _ _ _ _ E) as (_ & HL & Hr). exists r. split; [exact E|].
  destruct (Hr 0%nat) as (H0 & _ & _); [unfold gndim; simpl; lia|]. specialize (H0 eq_refl).
  destruct (Hr 1%nat) as (_ & _ & H1); [unfold gndim; simpl; lia|].
  destruct H1 as (t1 & t2 & T & V & F1 & F2); [discriminate | reflexivity |].
  assert (t1 = Dirichlet) as -> by (destruct F1 as [(_ & _ & H)|(H & _)]; [auto | discriminate]).
  assert (t2 = Dirichlet) as -> by (destruct F2 as [(_ & _ & H)|(H & _)]; [auto | discriminate]).
  split; [|exact V]. unfold gndim in HL; simpl in HL. destruct (btypes r) as [|x [|y [|]]]; simpl in HL; try lia.
  simpl in H0, T. congruence.
Qed.

(* @prop C13 An unsupported side along the flux (for instance a moving or porous Dirichlet wall, or a Neumann velocity with a Dirichlet scalar) raises, as does a velocity whose conditions are not of the homogeneous class. *)
Lemma flux_bc_unsupported_raises_lem : forall u c dir,
  bhom (gbc u) = false \/
  ((dir < gndim (ggrid (garray c)))%nat /\ ~ lower_periodic (gbc u) dir /\ exists i, forall t, ~ flux_condition (gbc u) (gbc c) dir i t) ->
  exists e, advection_flux_bc u c dir = Err e.
Proof.
  intros u c dir H. destruct (advection_flux_bc u c dir) as [r|e] eqn:E; [|eexists; reflexivity].
  exfalso. apply flux_bc_sound_lem in E. destruct E as (Eh & _ & Hr).
  destruct H as [H|(Hd & Hp & i & Hi)]; [congruence|].
  destruct (Hr dir Hd) as (_ & _ & H). destruct (H Hp eq_refl) as (t1 & t2 & _ & _ & F1 & F2).
  destruct i; [exact (Hi _ F2) | exact (Hi _ F1)].
Qed.

(* @ex *)
Lemma flux_bc_unsupported_raises_ex_lem :
  exists e, advection_flux_bc (ibv (neumann_bc 2 None)) (ibv (dirichlet_bc 2 None)) 1 = Err e.
Proof.
  apply flux_bc_unsupported_raises_lem. right. split; [unfold gndim; simpl; lia|]. split; [discriminate|].
  exists true. intros t [(H & _)|(_ & H & _)]; discriminate.
Qed.
