(** * C91: named boundary conditions; placing arrays on a grid *)
From Verif Require Import Prelude NdArr Grids_model Spec Boundaries_model BoundariesPeriodic WallBC PRep PeriodicBCProps WallBCProps SpecBC.
Set Implicit Arguments.

Lemma nth_error_repeat' {A} (x : A) n k : (k < n)%nat -> nth_error (repeat x n) k = Some x.
Proof. revert k; induction n as [|n IH]; intros [|k] H; cbn; try lia; [reflexivity|]. apply IH. lia. Qed.
Lemma given_nth vs a : (a < length vs)%nat -> nth_error (given vs) a = Some (Some (fst (nth a vs (0, 0)%R)), Some (snd (nth a vs (0, 0)%R))).
Proof. intros H. unfold given. rewrite nth_error_map, (nth_error_nth' vs (0, 0)%R H). reflexivity. Qed.
Lemma walls_intro b a t v : nth_error (btypes b) a = Some (t, t) -> nth_error (bvals b) a = Some (Some (fst v), Some (snd v)) -> walls b a t v.
Proof. intros H1 H2. split; eexists; eexists; (split; [exact H1 | exact H2]). Qed.
Lemma const_walls d t vs a : (a < d)%nat -> length vs = d -> walls (constant_bc (repeat (t, t) d) (given vs)) a t (nth a vs (0, 0)%R).
Proof. intros H HL. apply walls_intro; [cbn; apply nth_error_repeat'; exact H | cbn; apply given_nth; lia]. Qed.
Lemma hom_walls types a t : nth_error types a = Some (t, t) -> walls (homogeneous types) a t (0, 0)%R.
Proof. intros H. apply walls_intro; [exact H|]. cbn. apply nth_error_repeat'. apply nth_error_Some. congruence. Qed.
Lemma given_cons vs : (0 < length vs)%nat -> exists x l, given vs = x :: l.
Proof. destruct vs as [|v vs]; cbn; [lia|]. eauto. Qed.
Lemma channel_types d a : (2 <= d)%nat -> (a < d)%nat -> nth_error ([(Periodic, Periodic); (Dirichlet, Dirichlet)] ++ repeat (Periodic, Periodic) (d - 2)) a = Some (if (a =? 1)%nat then (Dirichlet, Dirichlet) else (Periodic, Periodic)).
Proof. intros Hd Ha. destruct a as [|[|a]]; [reflexivity|reflexivity|]. cbn [app nth_error Nat.eqb]. apply nth_error_repeat'. lia. Qed.

(* @prop C91 dirichlet_boundary_conditions and neumann_boundary_conditions: every side of every axis is a wall of that kind with the given value, zero when no values are given; periodic_boundary_conditions: every axis is periodic on both sides. *)
Lemma uniform_boundaries_lem : forall d a vs, (a < d)%nat -> length vs = d ->
  walls (dirichlet_bc d (Some (given vs))) a Dirichlet (nth a vs (0, 0)%R) /\ walls (dirichlet_bc d None) a Dirichlet (0, 0)%R /\
  walls (neumann_bc d (Some (given vs))) a Neumann (nth a vs (0, 0)%R) /\ walls (neumann_bc d None) a Neumann (0, 0)%R /\
  periodic_axis (periodic_bc d) a.
Proof.
  intros d a vs Ha HL. destruct (@given_cons vs ltac:(lia)) as (x & l & E). unfold dirichlet_bc, neumann_bc. rewrite E, <- E.
  repeat split; try (apply const_walls; assumption); try (apply hom_walls, nth_error_repeat'; assumption); try (apply (@const_walls d _ vs a Ha HL)); try (apply (@hom_walls _ a _ (nth_error_repeat' _ Ha))).
  apply nth_error_repeat'; exact Ha.
Qed.
(* @prop C91 channel_flow_boundary_conditions in two or more dimensions: walls with the given values (zero by default) on axis 1, every other axis periodic; the two-dimensional mixed constructors: one periodic axis and walls with the given values on the other. *)
Lemma mixed_boundaries_lem : forall d a vs v k, (2 <= d)%nat -> (a < d)%nat -> length vs = d ->
  (forall b, b = channel_flow_bc d None \/ b = channel_flow_bc d (Some (given vs)) -> length (btypes b) = d /\ (a <> 1%nat -> periodic_axis b a)) /\
  walls (channel_flow_bc d None) 1 Dirichlet (0, 0)%R /\ walls (channel_flow_bc d (Some (given vs))) 1 Dirichlet (nth 1 vs (0, 0)%R) /\
  periodic_axis (periodic_and_neumann_bc (Some v)) 0 /\ walls (periodic_and_neumann_bc (Some v)) 1 Neumann v /\
  periodic_axis (periodic_and_neumann_bc None) 0 /\ walls (periodic_and_neumann_bc None) 1 Neumann (0, 0)%R /\
  (let p := if (k =? 0)%nat then 0%nat else 1%nat in
   periodic_axis (periodic_and_dirichlet_bc (Some v) k) p /\ walls (periodic_and_dirichlet_bc (Some v) k) (1 - p) Dirichlet v /\
   periodic_axis (periodic_and_dirichlet_bc None k) p /\ walls (periodic_and_dirichlet_bc None k) (1 - p) Dirichlet (0, 0)%R).
Proof.
  intros d a vs (v1, v2) k Hd Ha HL. destruct (@given_cons vs ltac:(lia)) as (x & l & E). split; [|split; [|split]].
  - intros b Hb. assert (T : btypes b = [(Periodic, Periodic); (Dirichlet, Dirichlet)] ++ repeat (Periodic, Periodic) (d - 2)) by (destruct Hb as [-> | ->]; unfold channel_flow_bc; [|rewrite E]; reflexivity).
    split; [rewrite T, app_length, repeat_length; cbn; lia|]. intros Hne. unfold periodic_axis. rewrite T, channel_types by assumption. apply Nat.eqb_neq in Hne. rewrite Hne. reflexivity.
  - apply hom_walls. rewrite channel_types by lia. reflexivity.
  - unfold channel_flow_bc. rewrite E, <- E. apply walls_intro; [cbn [btypes constant_bc]; rewrite channel_types by lia; reflexivity | cbn [bvals constant_bc]; apply given_nth; lia].
  - unfold periodic_and_neumann_bc, periodic_and_dirichlet_bc. cbv zeta. destruct (k =? 0)%nat; repeat (split; [first [reflexivity | apply walls_intro; reflexivity]|]); first [reflexivity | apply walls_intro; reflexivity].
Qed.
(* @prop C91 In one dimension channel_flow_boundary_conditions describes two axes and no variable accepts it. *)
Lemma channel_flow_one_dim_lem : forall u vals, gndim (ggrid u) = 1%nat -> mk_gvar u (channel_flow_bc 1 vals) = Err EValue.
Proof. intros u vals H. unfold mk_gvar. rewrite H. destruct vals as [[|x l]|]; reflexivity. Qed.
(* @prop C91 What a channel flow does at its boundaries, in any dimension and with any padding mode: a cell-centred variable shifted by one cell towards a wall of axis 1 meets the wall value halfway between the last cell and the ghost cell, and shifting along any other axis is cyclic. *)
Lemma channel_flow_ghosts_lem : forall u vs mode, let d := gndim (ggrid u) in let b := channel_flow_bc d (Some (given vs)) in let n := Z.of_nat (nth 1 (gshape (ggrid u)) 0%nat) in
  wf_garr u -> (2 <= d)%nat -> length vs = d -> centred u 1 ->
  (exists r, bc_shift b u 1 1 mode = Ok r /\ forall ix, inb (gshape (ggrid u)) ix -> (nth 1 ix 0 = n - 1)%Z -> ((get (gdata u) ix + get (gdata r) ix) / 2 = snd (nth 1 vs (0, 0)))%R) /\
  (exists r, bc_shift b u (-1) 1 mode = Ok r /\ forall ix, inb (gshape (ggrid u)) ix -> (nth 1 ix 0 = 0)%Z -> ((get (gdata r) ix + get (gdata u) ix) / 2 = fst (nth 1 vs (0, 0)))%R) /\
  (forall a k, (a < d)%nat -> a <> 1%nat -> exists r, bc_shift b u k a mode = Ok r /\ forall ix, inb (gshape (ggrid u)) ix ->
     get (gdata r) ix = get (gdata u) (upd a ((nth a ix 0 + k) mod Z.of_nat (nth a (gshape (ggrid u)) 0%nat))%Z ix)).
Proof.
  intros u vs mode d b n Hu Hd HL Hc. destruct (@mixed_boundaries_lem d 1 vs (0, 0)%R 0 Hd ltac:(lia) HL) as (_ & _ & (Wl & Wu) & _). fold b in Wl, Wu. split; [|split].
  - destruct (@wall_shift_up_lem b u 1 1 mode Dirichlet _ Hu ltac:(fold d; lia) Hc Wu (or_introl eq_refl) ltac:(lia) (or_intror eq_refl)) as (r & E & _ & _ & _ & H). exists r. split; [exact E|]. intros ix Hi Hn. destruct (H ix Hi) as (_ & W). specialize (W ltac:(fold n; lia)). fold n in W. rewrite <- Hn, upd_nth_same in W. exact W.
  - destruct (@wall_shift_down_lem b u 1 1 mode Dirichlet _ Hu ltac:(fold d; lia) Hc Wl (or_introl eq_refl) ltac:(lia) (or_intror eq_refl)) as (r & E & _ & _ & _ & H). exists r. split; [exact E|]. intros ix Hi Hn. destruct (H ix Hi) as (_ & W). specialize (W ltac:(lia)). replace (upd 1 0%Z ix) with ix in W by (rewrite <- (upd_nth_same 1 0%Z ix) at 1; rewrite Hn; reflexivity). exact W.
  - intros a k Ha Hne. destruct (@mixed_boundaries_lem d a vs (0, 0)%R 0 Hd Ha HL) as (P & _). destruct (P b (or_intror eq_refl)) as (_ & Pa). destruct (@shift_is_cyclic_lem b u k a mode Hu Ha (Pa Hne)) as (r & E & (_ & _ & _ & G)). exists r. split; [exact E|]. exact G.
Qed.
(* @prop C91 values(axis, grid) of walls with values on both sides of an axis: one array per side over the remaining axes, filled with the lower and the upper value; (None, None) when either is missing. *)
Lemma boundary_values_lem : forall b a g lo hi, nth_error (bvals b) a = Some (lo, hi) ->
  match lo, hi with
  | Some l, Some h => exists A B, bc_values b a g = Some (A, B) /\ shp A = firstn a (gshape g) ++ skipn (S a) (gshape g) /\ shp B = shp A /\ forall ix, get A ix = l /\ get B ix = h
  | _, _ => bc_values b a g = None end.
Proof.
  intros b a g lo hi H. unfold bc_values. replace (bval b a) with (lo, hi) by (unfold bval; rewrite (nth_error_nth _ _ _ H); reflexivity). destruct lo as [l|], hi as [h|]; try reflexivity. eexists. eexists. split; [reflexivity|]. repeat split.
Qed.
(* @prop C91 Against its docstring ("In case of periodic boundaries, returns a tuple(None,None)"), values on a variable of periodic_boundary_conditions returns arrays of zeros. *)
Lemma periodic_values_none_refuted_lem : ~ (forall b a g, periodic_axis b a -> bc_values b a g = None).
Proof. intros H. specialize (H (periodic_bc 1) 0%nat (mkgrid [1%nat] [1%R] [(0, 1)%R]) eq_refl). discriminate H. Qed.
(* @prop C91 stagger places component k on the faces normal to axis k, without touching its data; components beyond the number of axes are dropped. center places every array at the cell centre. *)
Lemma placed_arrays_lem : forall g v, length (stagger g v) = Nat.min (length v) (gndim g) /\ length (center g v) = length v /\
  (forall k x, nth_error v k = Some x -> nth_error (center g v) k = Some (mkga x (repeat (1 # 2)%Q (gndim g)) g) /\
    ((k < gndim g)%nat -> exists o, nth_error (stagger g v) k = Some (mkga x o g) /\ off_eq o (offs k (1 # 2) (repeat (1 # 2)%Q (gndim g))))).
Proof.
  intros g v. assert (LF : length (cell_faces g) = gndim g) by (unfold cell_faces; rewrite map_length, seq_length; reflexivity). split; [unfold stagger; rewrite map_length, combine_length, LF; reflexivity|]. split; [apply map_length|]. intros k x Hk. split; [unfold center; rewrite nth_error_map, Hk; reflexivity|]. intros Hd.
  exists (nth k (cell_faces g) []). split.
  - unfold stagger. rewrite nth_error_map. replace (nth_error (combine v (cell_faces g)) k) with (Some (x, nth k (cell_faces g) [])); [reflexivity|]. symmetry. assert (Hv : (k < length v)%nat) by (apply nth_error_Some; congruence).
    rewrite (nth_error_nth' (combine v (cell_faces g)) (x, [])) by (rewrite combine_length; lia). f_equal. revert Hk Hv LF Hd. generalize (cell_faces g), (gndim g). clear. revert k. induction v as [|y v IH]; intros k l d Hk Hv LF Hd; cbn in Hv; [lia|]. destruct l as [|f l]; [cbn in LF; lia|]. destruct k as [|k]; cbn in *; [congruence|]. apply (IH k l (d - 1)%nat Hk); lia.
  - apply off_eq_intro; [unfold offs; rewrite upd_length, repeat_length; unfold cell_faces; rewrite nth_map_seq by exact Hd; rewrite map_length, seq_length; reflexivity|]. intros j Hj. unfold cell_faces in *. rewrite nth_map_seq in * by exact Hd. rewrite map_length, seq_length in Hj. rewrite nth_map_seq by exact Hj. unfold offs. destruct (Nat.eqb_spec k j) as [<-|Hne]; [rewrite nth_upd_same by (rewrite repeat_length; exact Hd); rewrite !nth_repeat' by exact Hd; reflexivity | rewrite nth_upd_other by congruence; rewrite nth_repeat' by exact Hj; reflexivity].
Qed.

(** ** Examples *)
(* @ex *)
Lemma uniform_boundaries_ex_lem : length [(1, 2); (3, 4)]%R = 2%nat /\ walls (dirichlet_bc 2 (Some (given [(1, 2); (3, 4)]%R))) 1 Dirichlet (3, 4)%R.
Proof. split; [reflexivity|]. apply walls_intro; reflexivity. Qed.
(* @ex *)
Lemma mixed_boundaries_ex_lem : length [(0, 0); (3, 4); (0, 0)]%R = 3%nat /\ periodic_axis (channel_flow_bc 3 None) 2.
Proof. split; reflexivity. Qed.
Definition tube : garr := mkga (mkarr [2; 3]%nat (fun ix => IZR (nth 1 ix 0%Z))) [(1 # 2)%Q; (1 # 2)%Q] (mkgrid [2; 3]%nat [1; 1]%R [(0, 2); (0, 3)]%R).
(* @ex *)
Lemma channel_flow_one_dim_ex_lem : gndim (ggrid (mkga (afull [2%nat] 0%R) [(1 # 2)%Q] (mkgrid [2%nat] [1%R] [(0, 2)%R]))) = 1%nat.
Proof. reflexivity. Qed.
(* @ex *)
Lemma channel_flow_ghosts_ex_lem : wf_garr tube /\ (2 <= gndim (ggrid tube))%nat /\ centred tube 1 /\ inb (gshape (ggrid tube)) [0; 2]%Z.
Proof. split; [split; [split; [reflexivity|]; split; [reflexivity|]; split; [repeat constructor | repeat constructor; lra]|split; reflexivity]|]. split; [cbn; lia|]. split; [reflexivity|]. cbn. lia. Qed.
(* @ex *)
Lemma boundary_values_ex_lem : nth_error (bvals (dirichlet_bc 2 (Some (given [(1, 2); (3, 4)]%R)))) 1 = Some (Some 3, Some 4)%R /\ exists A B, bc_values (dirichlet_bc 2 (Some (given [(1, 2); (3, 4)]%R))) 1 (ggrid tube) = Some (A, B) /\ shp A = [2%nat].
Proof. split; [reflexivity|]. eexists. eexists. split; reflexivity. Qed.
(* @ex *)
Lemma placed_arrays_ex_lem : nth_error (stagger (ggrid tube) [gdata tube; gdata tube; gdata tube]) 1 = Some (mkga (gdata tube) [((0 + 1) / 2)%Q; ((1 + 1) / 2)%Q] (ggrid tube)) /\ length (stagger (ggrid tube) [gdata tube; gdata tube; gdata tube]) = 2%nat.
Proof. split; reflexivity. Qed.
