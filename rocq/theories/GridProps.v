(** * Properties of grids.py: construction, mesh, arithmetic, offsets *)
From Coq Require Import Qreals.
From Verif Require Import Prelude NdArr Grids_model Spec PRep FDProofs.
Set Implicit Arguments.

(** Which constructor arguments are meaningful (spec of the docstring of Grid). *)
Definition valid_grid_args (shape : list nat) (step : step_arg) (domain : domain_arg) : Prop :=
  Forall (fun n => n <> 0%nat) shape /\
  match step, domain with
  | StepNone, DomNone | StepScalar _, DomNone | StepNone, DomScalar _ => True
  | StepSeq l, DomNone => length l = length shape
  | StepNone, DomSeq l => length l = length shape /\ Forall (fun b => length b = 2%nat) l
  | _, _ => False
  end.

Definition grid_domain_of (shape : list nat) (step : step_arg) (domain : domain_arg) : result (list (R * R)) :=
    match step, domain with
    | StepNone, DomNone =>
        Ok (map (fun ss => (0%R, (fst ss * INR (snd ss))%R)) (combine (repeat 1%R (length shape)) shape))
    | StepScalar s, DomNone =>
        Ok (map (fun ss => (0%R, (fst ss * INR (snd ss))%R)) (combine (repeat s (length shape)) shape))
    | StepSeq l, DomNone =>
        if (length l =? length shape)%nat
        then Ok (map (fun ss => (0%R, (fst ss * INR (snd ss))%R)) (combine l shape))
        else Err EValue
    | StepNone, DomScalar x => Ok (repeat (0%R, x) (length shape))
    | StepNone, DomSeq l =>
        if (length l =? length shape)%nat then mapM pair_of_bounds l else Err EValue
    | _, _ => Err EType
    end.

Definition steps_of (dom : list (R * R)) (shape : list nat) : result (list R) :=
  mapM (fun ds => match ds with
                  | ((lo, hi), n) => if (n =? 0)%nat then Err EZeroDiv else Ok ((hi - lo) / INR n)%R
                  end) (combine dom shape).

Lemma grid_init_unfold shape step domain :
  grid_init shape step domain =
  let* dom := grid_domain_of shape step domain in
  let* stp := steps_of dom shape in Ok (mkgrid shape stp dom).
Proof. reflexivity. Qed.

Lemma pair_of_bounds_inv b p : pair_of_bounds b = Ok p -> b = [fst p; snd p].
Proof. destruct b as [|x [|y [|z b]]]; simpl; intros H; try discriminate. injection H as <-. reflexivity. Qed.

Lemma mapM_pair_inv l dom : mapM pair_of_bounds l = Ok dom -> map (fun b => [fst b; snd b]) dom = l.
Proof.
  intros H. apply mapM_Ok_inv in H. induction H as [|x y l dom H HF IH]; [reflexivity|].
  simpl. rewrite (pair_of_bounds_inv _ H), IH. reflexivity.
Qed.

Lemma grid_domain_of_length shape step domain dom :
  grid_domain_of shape step domain = Ok dom -> length dom = length shape.
Proof.
  unfold grid_domain_of. intros H.
  destruct step as [|s|l], domain as [|x|l']; try discriminate.
  - injection H as <-. rewrite map_length, combine_length, repeat_length. lia.
  - injection H as <-. rewrite repeat_length. reflexivity.
  - destruct (length l' =? length shape)%nat eqn:E; [|discriminate]. apply Nat.eqb_eq in E.
    apply mapM_pair_inv in H. rewrite <- E, <- H, map_length. reflexivity.
  - injection H as <-. rewrite map_length, combine_length, repeat_length. lia.
  - destruct (length l =? length shape)%nat eqn:E; [|discriminate]. apply Nat.eqb_eq in E.
    injection H as <-. rewrite map_length, combine_length. lia.
Qed.

Lemma steps_of_spec dom shape stp : length dom = length shape -> steps_of dom shape = Ok stp ->
  length stp = length shape /\
  forall i, (i < length shape)%nat ->
    nth i shape 0%nat <> 0%nat /\
    nth i stp 0%R = ((snd (nth i dom (0, 0)) - fst (nth i dom (0, 0))) / INR (nth i shape 0%nat))%R.
Proof.
  unfold steps_of. intros HL H. apply mapM_Ok_inv in H.
  revert shape stp HL H; induction dom as [|[lo hi] dom IH]; intros [|n shape] stp HL H; simpl in *; try lia.
  - inversion H; subst. split; [reflexivity|]. intros; lia.
  - inversion H as [|x y l l' Hxy HF]; subst. destruct (Nat.eqb_spec n 0) as [->|Hn]; [discriminate|].
    injection Hxy as <-. destruct (IH shape l') as (H1 & H2); [lia | auto|].
    split; [simpl; lia|]. intros [|i] Hi; simpl; [auto|]. apply H2; lia.
Qed.

Lemma steps_of_ok dom shape : length dom = length shape -> Forall (fun n => n <> 0%nat) shape ->
  is_ok (steps_of dom shape).
Proof.
  unfold steps_of. revert shape; induction dom as [|[lo hi] dom IH]; intros [|n shape] HL H; simpl in *; try lia.
  - eexists; reflexivity.
  - inversion H as [|x l Hn HF]; subst. destruct (Nat.eqb_spec n 0); [lia|]. simpl.
    destruct (IH shape ltac:(lia) HF) as (t & E). rewrite E. simpl. eexists; reflexivity.
Qed.

(* @prop C01 Every Grid the constructor returns has the requested shape, one step and one domain pair per axis, and satisfies upper - lower = step * shape on every axis, whatever the form of the arguments. *)
Lemma grid_identity_lem : forall shape step domain g,
  grid_init shape step domain = Ok g ->
  gshape g = shape /\ length (gstep g) = length shape /\ length (gdomain g) = length shape /\
  forall i, (i < length shape)%nat ->
    (snd (nth i (gdomain g) (0, 0)) - fst (nth i (gdomain g) (0, 0)) = nth i (gstep g) 0 * INR (nth i shape 0%nat))%R.
Proof.
  intros shape step domain g H. rewrite grid_init_unfold in H.
  apply bind_Ok_inv in H. destruct H as (dom & Hd & H). apply bind_Ok_inv in H. destruct H as (stp & Hs & H).
  injection H as <-. simpl. pose proof (@grid_domain_of_length _ _ _ _ Hd) as HL.
  destruct (@steps_of_spec _ _ _ HL Hs) as (H1 & H2). repeat split; auto.
  intros i Hi. destruct (H2 i Hi) as (Hn & E). rewrite E.
  assert (INR (nth i shape 0%nat) <> 0%R) by (apply not_0_INR; auto). field; auto.
Qed.
(* @ex *)
Lemma grid_identity_ex_lem : exists g, grid_init [3%nat; 4%nat] StepNone (DomSeq [[1%R; 7%R]; [0%R; 1%R]]) = Ok g /\
  gstep g = [2%R; (/ 4)%R].
Proof. eexists; split; [reflexivity|]. simpl. f_equal; [field|]. f_equal; field. Qed.

(* @prop C01 The constructor succeeds exactly on meaningful arguments (never with both step and domain, never with a length mismatch); otherwise it raises. *)
Lemma grid_init_iff_lem : forall shape step domain,
  is_ok (grid_init shape step domain) <-> valid_grid_args shape step domain.
Proof.
  intros shape step domain. rewrite grid_init_unfold. split.
  - intros (g & H). apply bind_Ok_inv in H. destruct H as (dom & Hd & H). apply bind_Ok_inv in H. destruct H as (stp & Hs & H).
    pose proof (@grid_domain_of_length _ _ _ _ Hd) as HL. destruct (@steps_of_spec _ _ _ HL Hs) as (H1 & H2).
    split.
    + apply Forall_forall. intros n Hn. apply (In_nth _ _ 0%nat) in Hn. destruct Hn as (i & Hi & <-). apply H2; auto.
    + unfold grid_domain_of in Hd. destruct step as [|s|l], domain as [|x|l']; try discriminate; auto.
      * destruct (length l' =? length shape)%nat eqn:E; [|discriminate]. apply Nat.eqb_eq in E. split; auto.
        apply mapM_pair_inv in Hd. rewrite <- Hd. apply Forall_forall. intros b Hb. apply in_map_iff in Hb.
        destruct Hb as (p & <- & _). reflexivity.
      * destruct (length l =? length shape)%nat eqn:E; [|discriminate]. apply Nat.eqb_eq in E. auto.
  - intros (Hs & Hv).
    assert (exists dom, grid_domain_of shape step domain = Ok dom) as (dom & Ed).
    { unfold grid_domain_of. destruct step as [|s|l], domain as [|x|l']; try tauto; try (eexists; reflexivity).
      - destruct Hv as (HL & HF). rewrite HL, Nat.eqb_refl. clear HL. induction HF as [|b l' Hb HF IH]; [eexists; reflexivity|].
        destruct IH as (d & Ed). destruct b as [|x [|y [|z b]]]; simpl in Hb; try lia. simpl. rewrite Ed. simpl. eexists; reflexivity.
      - rewrite Hv, Nat.eqb_refl. eexists; reflexivity. }
    rewrite Ed. simpl. pose proof (@grid_domain_of_length _ _ _ _ Ed) as HL.
    destruct (@steps_of_ok _ _ HL Hs) as (stp & Es). rewrite Es. simpl. eexists; reflexivity.
Qed.
(* @ex *)
Lemma grid_init_iff_ex_lem : valid_grid_args [3%nat; 5%nat] (StepSeq [2%R; 3%R]) DomNone /\
  ~ valid_grid_args [3%nat] (StepScalar 1%R) (DomScalar 1%R) /\ ~ valid_grid_args [3%nat; 5%nat] (StepSeq [2%R]) DomNone.
Proof. unfold valid_grid_args; simpl; repeat split; try (repeat constructor; lia); intros (_ & H); (tauto || lia). Qed.

(** The step each argument form asks for. *)
Definition requested_step (ndim : nat) (s : step_arg) : list R :=
  match s with StepNone => repeat 1%R ndim | StepScalar x => repeat x ndim | StepSeq l => l end.

(* @prop C01 A requested step (default 1, scalar, or per axis) is the step obtained, with lower bound 0; a requested domain is the domain obtained. *)
Lemma grid_requested_lem : forall shape step domain g,
  grid_init shape step domain = Ok g ->
  (domain = DomNone -> gstep g = requested_step (length shape) step /\ Forall (fun b => fst b = 0%R) (gdomain g)) /\
  (forall x, domain = DomScalar x -> gdomain g = repeat (0%R, x) (length shape)) /\
  (forall l, domain = DomSeq l -> map (fun b => [fst b; snd b]) (gdomain g) = l).
Proof.
  intros shape step domain g H. rewrite grid_init_unfold in H.
  apply bind_Ok_inv in H. destruct H as (dom & Hd & H). apply bind_Ok_inv in H. destruct H as (stp & Hs & H).
  injection H as <-. simpl. pose proof (@grid_domain_of_length _ _ _ _ Hd) as HL.
  destruct (@steps_of_spec _ _ _ HL Hs) as (H1 & H2). split; [|split].
  - intros ->.
    assert (Hr : length (requested_step (length shape) step) = length shape /\
                 dom = map (fun ss => (0%R, (fst ss * INR (snd ss))%R)) (combine (requested_step (length shape) step) shape)).
    { destruct step as [|s|l]; simpl in *.
      - injection Hd as <-. rewrite repeat_length. auto.
      - injection Hd as <-. rewrite repeat_length. auto.
      - destruct (length l =? length shape)%nat eqn:E; [|discriminate]. apply Nat.eqb_eq in E. injection Hd as <-. auto. }
    destruct Hr as (Hrl & ->). split.
    + apply (list_ext_nth 0%R); [congruence|]. intros i Hi. rewrite H1 in Hi. destruct (H2 i Hi) as (Hn & E).
      rewrite E.
      rewrite (@nth_map' _ _ _ _ i (0%R, 0%nat)) by (rewrite combine_length; lia). simpl.
      rewrite combine_nth by auto. simpl.
      assert (INR (nth i shape 0%nat) <> 0%R) by (apply not_0_INR; auto). field; auto.
    + apply Forall_forall. intros b Hb. apply in_map_iff in Hb. destruct Hb as (p & <- & _). reflexivity.
  - intros x ->. unfold grid_domain_of in Hd. destruct step; try discriminate. injection Hd as <-. reflexivity.
  - intros l ->. unfold grid_domain_of in Hd. destruct step; try discriminate.
    destruct (length l =? length shape)%nat; [|discriminate]. apply mapM_pair_inv; auto.
Qed.
(* @ex *)
Lemma grid_requested_ex_lem : exists g, grid_init [3%nat; 4%nat] (StepScalar 2%R) DomNone = Ok g /\ gdomain g = [(0%R, (2 * INR 3)%R); (0%R, (2 * INR 4)%R)].
Proof. eexists; split; reflexivity. Qed.

(** ** Mesh *)
Lemma grid_axes_spec g o : wfg g -> length o = gndim g ->
  exists l, grid_axes g (Some o) = Ok l /\ length l = gndim g /\
    forall a, (a < gndim g)%nat -> fst (nth a l (0%nat, fun _ => 0%R)) = nth a (gshape g) 0%nat /\
      forall i, snd (nth a l (0%nat, fun _ => 0%R)) i =
        (fst (nth a (gdomain g) (0, 0)) + (IZR i + Q2R (nth a o 0%Q)) * hstep g a)%R.
Proof.
  intros (H1 & H2 & H3 & _) Ho. unfold grid_axes. rewrite Ho, Nat.eqb_refl. simpl.
  eexists; split; [reflexivity|].
  assert (HLc : length (combine (combine (combine (gdomain g) o) (gshape g)) (gstep g)) = gndim g).
  { rewrite !combine_length. unfold gndim in *. lia. }
  split; [rewrite map_length; auto|].
  intros a Ha.
  rewrite (@nth_map' _ _ _ _ a ((((0%R, 0%R), 0%Q), 0%nat), 0%R)) by lia.
  rewrite combine_nth by (rewrite !combine_length; unfold gndim in *; lia).
  rewrite combine_nth by (rewrite !combine_length; unfold gndim in *; lia).
  rewrite combine_nth by (unfold gndim in *; lia).
  destruct (nth a (gdomain g) (0%R, 0%R)) as [lo hi] eqn:E. simpl. split; reflexivity.
Qed.

(* @prop C02 mesh(offset) has one array of the grid's shape per axis, and entry ix of array a is lower_a + (ix_a + offset_a) * step_a; a wrong offset length raises. *)
Lemma mesh_points_lem : forall g o, wfg g ->
  (length o = gndim g ->
   exists m, grid_mesh g (Some o) = Ok m /\ length m = gndim g /\
     forall a, (a < gndim g)%nat ->
       shp (nth a m (afull [] 0%R)) = gshape g /\ forall ix, get (nth a m (afull [] 0%R)) ix = coord g o a ix) /\
  (length o <> gndim g -> grid_mesh g (Some o) = Err EValue).
Proof.
  intros g o Hw. split.
  - intros Ho. destruct (@grid_axes_spec g o Hw Ho) as (l & E & HL & Hl).
    unfold grid_mesh. rewrite E. cbn [bind]. eexists; split; [reflexivity|].
    assert (HLc : length (combine (seq 0 (length l)) l) = gndim g) by (rewrite combine_length, seq_length; lia).
    split; [rewrite map_length; auto|].
    intros a Ha. rewrite (@nth_map' _ _ _ _ a (0%nat, (0%nat, fun _ : Z => 0%R))) by lia.
    rewrite combine_nth by (rewrite seq_length; auto).
    rewrite seq_nth by lia. simpl.
    destruct (Hl a Ha) as (Hf & Hs). destruct (nth a l (0%nat, fun _ : Z => 0%R)) as [n x]. simpl in *. split.
    + apply (list_ext_nth 0%nat); [rewrite map_length; unfold gndim in *; lia|].
      intros k Hk. rewrite map_length in Hk.
      rewrite (@nth_map' _ _ _ _ k (0%nat, fun _ : Z => 0%R)) by auto. apply Hl. lia.
    + intros ix. rewrite Hs. reflexivity.
  - intros Ho. unfold grid_mesh, grid_axes. replace (length o =? gndim g)%nat with false by (symmetry; apply Nat.eqb_neq; auto).
    reflexivity.
Qed.
(* @ex *)
Lemma mesh_points_ex_lem : wfg (mkgrid [3%nat; 4%nat] [2%R; 1%R] [(1%R, 7%R); (0%R, 4%R)]) /\
  coord (mkgrid [3%nat; 4%nat] [2%R; 1%R] [(1%R, 7%R); (0%R, 4%R)]) [(1 # 2)%Q; 0%Q] 0 [2%Z; 1%Z] = 6%R.
Proof.
  split; [repeat split; repeat constructor; (lia || lra)|]. unfold coord, hstep; simpl. unfold Q2R; simpl. lra.
Qed.

(* @prop C02 eval_on_mesh(fn, offset) holds fn of the coordinates at every point, at that offset and grid. *)
Lemma eval_on_mesh_spec_lem : forall g o (f : list R -> R), wfg g -> length o = gndim g ->
  exists w, eval_on_mesh g (fun m => Ok (mkarr (gshape g) (fun ix => f (map (fun x => get x ix) m)))) (Some o) = Ok w /\
    is_field w g o (fun ix => f (map (fun a => coord g o a ix) (seq 0 (gndim g)))).
Proof.
  intros g o f Hw Ho. destruct (mesh_points_lem o Hw) as (H & _). destruct (H Ho) as (m & E & HL & Hm).
  unfold eval_on_mesh. rewrite E. cbn [bind]. eexists; split; [reflexivity|].
  repeat split; simpl; auto; [apply off_eq_refl|]. intros ix Hi. f_equal.
  apply (list_ext_nth 0%R); [rewrite !map_length, seq_length; auto|].
  intros k Hk. rewrite map_length in Hk. rewrite nth_map_seq by lia.
  rewrite (@nth_map' _ _ _ _ k (afull [] 0%R)) by auto. apply Hm. lia.
Qed.
(* @ex *)
Lemma eval_on_mesh_spec_ex_lem : exists w, eval_on_mesh (mkgrid [2%nat] [1%R] [(0%R, 2%R)])
   (fun m => Ok (mkarr [2%nat] (fun ix => lsum (map (fun x => get x ix) m)))) None = Ok w /\ get (gdata w) [1%Z] = (3 / 2)%R.
Proof. eexists; split; [reflexivity|]. simpl. unfold Q2R; simpl. lra. Qed.

(* @prop C02 On a grid the constructor returns with positive steps, offsets in [0,1] put every point inside the closed domain. *)
Lemma mesh_inside_lem : forall shape step domain g o a ix,
  grid_init shape step domain = Ok g -> (a < length shape)%nat -> inb shape ix ->
  (0 < nth a (gstep g) 0)%R -> (0 <= nth a o 0)%Q -> (nth a o 0 <= 1)%Q ->
  (fst (nth a (gdomain g) (0, 0)) <= coord g o a ix <= snd (nth a (gdomain g) (0, 0)))%R.
Proof.
  intros shape step domain g o a ix H Ha Hin Hst H0 H1.
  destruct (grid_identity_lem _ _ _ H) as (Hs & HL & HD & Hid). specialize (Hid a Ha).
  pose proof (@inb_nth _ _ a Hin Ha) as Hi.
  apply Qle_Rle in H0. apply Qle_Rle in H1. rewrite RMicromega.Q2R_0 in H0. rewrite RMicromega.Q2R_1 in H1.
  unfold coord, hstep. set (h := nth a (gstep g) 0%R) in *. set (lo := fst _) in *. set (hi := snd _) in *.
  assert (Hi0 : (0 <= IZR (nth a ix 0%Z))%R) by (apply IZR_le; lia).
  assert (Hi1 : (IZR (nth a ix 0%Z) + 1 <= INR (nth a shape 0%nat))%R).
  { rewrite INR_IZR_INZ, <- plus_IZR. apply IZR_le. lia. }
  replace hi with (lo + h * INR (nth a shape 0%nat))%R by lra.
  split; [nra|]. assert ((IZR (nth a ix 0%Z) + Q2R (nth a o 0%Q)) * h <= h * INR (nth a shape 0%nat))%R by nra. lra.
Qed.
(* @ex *)
Lemma mesh_inside_ex_lem : exists g, grid_init [2%nat] StepNone (DomSeq [[1%R; 5%R]]) = Ok g /\ (0 < nth 0 (gstep g) 0)%R /\ inb [2%nat] [1%Z].
Proof. eexists; split; [reflexivity|]. simpl. split; [lra | lia]. Qed.

(** ** Arithmetic *)
Lemma In_gas u l : In u (gas l) <-> In (OGA u) l.
Proof.
  induction l as [|o l IH]; simpl; [tauto|]. destruct o; simpl; rewrite IH; split; intros H; try tauto;
    destruct H as [H|H]; try discriminate; try tauto; left; congruence.
Qed.

Lemma existsb_gv l : existsb is_gv l = true <-> exists u, In (OGV u) l.
Proof.
  rewrite existsb_exists. split.
  - intros (o & Ho & H). destruct o; try discriminate. eauto.
  - intros (u & H). exists (OGV u); auto.
Qed.

Lemma consistent_offset_ok l o : consistent_offset l = Ok o ->
  l <> [] /\ forall u, In u l -> off_eq (goff u) o.
Proof.
  destruct l as [|a l]; simpl; [discriminate|]. destruct (forallb _ l) eqn:E; [|discriminate].
  intros H; injection H as <-. split; [discriminate|]. intros u [<-|Hu]; [apply off_eq_refl|].
  rewrite forallb_forall in E. apply off_eq_sym, off_eqb_iff, E; auto.
Qed.

Lemma consistent_grid_ok l g : consistent_grid l = Ok g ->
  l <> [] /\ forall u, In u l -> ggrid u = g.
Proof.
  destruct l as [|a l]; simpl; [discriminate|]. destruct (forallb _ l) eqn:E; [|discriminate].
  intros H; injection H as <-. split; [discriminate|]. intros u [<-|Hu]; [auto|].
  rewrite forallb_forall in E. symmetry; apply grid_eqb_eq, E; auto.
Qed.

Lemma consistent_offset_all o l : l <> [] -> (forall u, In u l -> off_eq (goff u) o) ->
  exists o', consistent_offset l = Ok o' /\ off_eq o' o.
Proof.
  destruct l as [|a l]; [congruence|]. intros _ H. simpl.
  replace (forallb (fun b => off_eqb (goff a) (goff b)) l) with true.
  - eexists; split; [reflexivity|]. apply H; simpl; auto.
  - symmetry. apply forallb_forall. intros b Hb. apply off_eqb_iff.
    eapply off_eq_trans; [apply H; simpl; auto | apply off_eq_sym, H; simpl; auto].
Qed.

Lemma consistent_offset_err l : (forall o, consistent_offset l <> Ok o) -> consistent_offset l = Err EOffset.
Proof. destruct l as [|a l]; simpl; auto. destruct (forallb _ l); auto. intros H; exfalso; eapply H; reflexivity. Qed.
Lemma consistent_grid_err l : (forall o, consistent_grid l <> Ok o) -> consistent_grid l = Err EGrid.
Proof. destruct l as [|a l]; simpl; auto. destruct (forallb _ l); auto. intros H; exfalso; eapply H; reflexivity. Qed.

(** All GridArray operands share offset [o] and grid [g], there is at least one, and there is no GridVariable. *)
Definition operands_agree (l : list operand) (o : list Q) (g : grid) : Prop :=
  (exists u, In (OGA u) l) /\ (forall u, ~ In (OGV u) l) /\
  forall u, In (OGA u) l -> off_eq (goff u) o /\ ggrid u = g.

Lemma not_gv l : (forall u, ~ In (OGV u) l) <-> existsb is_gv l = false.
Proof.
  split; intros H.
  - apply not_true_iff_false. rewrite existsb_gv. intros (u & Hu). apply (H u); auto.
  - intros u Hu. apply not_true_iff_false in H. apply H. apply existsb_gv; eauto.
Qed.

Lemma gas_nonnil l : gas l <> [] <-> exists u, In (OGA u) l.
Proof.
  split.
  - destruct (gas l) as [|u l'] eqn:E; [congruence|]. intros _. exists u. apply In_gas. rewrite E; simpl; auto.
  - intros (u & Hu) H. apply In_gas in Hu. rewrite H in Hu. exact Hu.
Qed.

(* @prop C03 An arithmetic operation on GridArrays (ufunc) returns a result exactly when the raw operation is defined, no operand is a GridVariable, and all GridArray operands (at least one) have one common offset and grid; the result carries that offset, that grid and the raw data. *)
Lemma ufunc_sound_lem : forall func inputs w,
  array_ufunc func inputs = Ok w ->
  operands_agree inputs (goff w) (ggrid w) /\ func (map raw inputs) = Ok (gdata w).
Proof.
  intros func inputs w H. unfold array_ufunc in H. destruct (existsb is_gv inputs) eqn:E; [discriminate|].
  apply bind_Ok_inv in H. destruct H as (d & Hd & H). apply bind_Ok_inv in H. destruct H as (o & Ho & H).
  apply bind_Ok_inv in H. destruct H as (g & Hg & H). injection H as <-. simpl.
  destruct (consistent_offset_ok _ Ho) as (Hn & Ha). destruct (consistent_grid_ok _ Hg) as (_ & Hb).
  split; auto. split; [apply gas_nonnil; auto|]. split; [apply not_gv; auto|].
  intros u Hu. apply In_gas in Hu. auto.
Qed.
(* @ex *)
Lemma ufunc_sound_ex_lem : exists w, ga_add (mkga (afull [2%nat] 1%R) [0%Q] (mkgrid [2%nat] [1%R] [(0%R, 2%R)]))
   (mkga (afull [2%nat] 2%R) [0%Q] (mkgrid [2%nat] [1%R] [(0%R, 2%R)])) = Ok w.
Proof.
  unfold ga_add, ga_op2, array_ufunc. simpl. 
  rewrite grid_eqb_refl. simpl. eexists; reflexivity.
Qed.

(* @prop C03 Converse: when the operands agree and the raw operation is defined the operation returns. *)
Lemma ufunc_complete_lem : forall func inputs o g d,
  operands_agree inputs o g -> func (map raw inputs) = Ok d ->
  exists w, array_ufunc func inputs = Ok w /\ gdata w = d /\ off_eq (goff w) o /\ ggrid w = g.
Proof.
  intros func inputs o g d (H1 & H2 & H3) Hd. unfold array_ufunc.
  rewrite (proj1 (not_gv inputs) H2). rewrite Hd. cbn [bind].
  assert (Hn : gas inputs <> []) by (apply gas_nonnil; auto).
  destruct (@consistent_offset_all o (gas inputs)) as (o' & Eo & Ho'); auto.
  { intros u Hu. apply In_gas in Hu. apply H3; auto. }
  rewrite Eo. cbn [bind].
  rewrite (@consistent_grid_all g (gas inputs)).
  - cbn [bind]. eexists; split; [reflexivity|]. auto.
  - destruct (gas inputs); [congruence | simpl; lia].
  - intros u Hu. apply In_gas in Hu. apply H3; auto.
Qed.
(* @ex *)
Lemma ufunc_complete_ex_lem : operands_agree [OScalar 2%R; OGA (mkga (afull [2%nat] 1%R) [0%Q] (mkgrid [2%nat] [1%R] [(0%R, 2%R)]))]
   [0%Q] (mkgrid [2%nat] [1%R] [(0%R, 2%R)]).
Proof.
  split; [eexists; simpl; eauto|]. split; [simpl; intros u [H|[H|H]]; (discriminate || tauto)|].
  simpl; intros u [H|[H|H]]; try discriminate; try tauto. injection H as <-. split; [apply off_eq_refl | reflexivity].
Qed.

(* @prop C03 Two GridArray operands with different offsets make the operation raise InconsistentOffsetError; with equal offsets but different grids it raises InconsistentGridError. *)
Lemma ufunc_mismatch_lem : forall func inputs d u v,
  (forall x, ~ In (OGV x) inputs) -> func (map raw inputs) = Ok d ->
  In (OGA u) inputs -> In (OGA v) inputs ->
  (~ off_eq (goff u) (goff v) -> array_ufunc func inputs = Err EOffset) /\
  (ggrid u <> ggrid v -> (forall x, In (OGA x) inputs -> off_eq (goff x) (goff u)) -> array_ufunc func inputs = Err EGrid).
Proof.
  intros func inputs d u v Hgv Hd Hu Hv. unfold array_ufunc. rewrite (proj1 (not_gv inputs) Hgv), Hd. cbn [bind].
  split.
  - intros Hne. rewrite (@consistent_offset_err (gas inputs)); [reflexivity|].
    intros o Ho. apply consistent_offset_ok in Ho. destruct Ho as (_ & Ho). apply Hne.
    eapply off_eq_trans; [apply Ho; apply In_gas; auto | apply off_eq_sym, Ho; apply In_gas; auto].
  - intros Hne Hall. destruct (@consistent_offset_all (goff u) (gas inputs)) as (o' & Eo & _).
    { apply gas_nonnil; eauto. }
    { intros x Hx. apply Hall. apply In_gas; auto. }
    rewrite Eo. cbn [bind]. rewrite (@consistent_grid_err (gas inputs)); [reflexivity|].
    intros g Hg. apply consistent_grid_ok in Hg. destruct Hg as (_ & Hg). apply Hne.
    rewrite (Hg u), (Hg v) by (apply In_gas; auto). reflexivity.
Qed.
(* @ex *)
Lemma ufunc_mismatch_ex_lem : ~ off_eq [0%Q; (1 # 2)%Q] [0%Q; 1%Q].
Proof. intros H. inversion H as [|? ? ? ? _ H2]; subst. inversion H2 as [|? ? ? ? H3 _]; subst. discriminate H3. Qed.

(* @prop C03 grids.applied has the same contract and raises on any GridVariable argument. *)
Lemma applied_spec_lem : forall func inputs,
  ((exists x, In (OGV x) inputs) -> applied func inputs = Err EValue) /\
  (forall w, applied func inputs = Ok w -> operands_agree inputs (goff w) (ggrid w) /\ func (map raw inputs) = Ok (gdata w)) /\
  (forall o g d, operands_agree inputs o g -> func (map raw inputs) = Ok d ->
     exists w, applied func inputs = Ok w /\ gdata w = d /\ off_eq (goff w) o /\ ggrid w = g).
Proof.
  intros func inputs. unfold applied. split; [|split].
  - intros H. apply existsb_gv in H. rewrite H. reflexivity.
  - intros w H. destruct (existsb is_gv inputs) eqn:E; [discriminate|].
    apply bind_Ok_inv in H. destruct H as (o & Ho & H). apply bind_Ok_inv in H. destruct H as (g & Hg & H).
    apply bind_Ok_inv in H. destruct H as (d & Hd & H). injection H as <-. simpl.
    destruct (consistent_offset_ok _ Ho) as (Hn & Ha). destruct (consistent_grid_ok _ Hg) as (_ & Hb).
    split; auto. split; [apply gas_nonnil; auto|]. split; [apply not_gv; auto|].
    intros u Hu. apply In_gas in Hu. auto.
  - intros o g d (H1 & H2 & H3) Hd. rewrite (proj1 (not_gv inputs) H2).
    assert (Hn : gas inputs <> []) by (apply gas_nonnil; auto).
    destruct (@consistent_offset_all o (gas inputs)) as (o' & Eo & Ho'); auto.
    { intros u Hu. apply In_gas in Hu. apply H3; auto. }
    rewrite Eo. cbn [bind].
    rewrite (@consistent_grid_all g (gas inputs)).
    + rewrite Hd. cbn [bind]. eexists; split; [reflexivity|]. auto.
    + destruct (gas inputs); [congruence | simpl; lia].
    + intros u Hu. apply In_gas in Hu. apply H3; auto.
Qed.
(* @ex *)
Lemma applied_spec_ex_lem : applied (raw2 Rplus) [OGV dgv; OScalar 1%R] = Err EValue.
Proof. reflexivity. Qed.

(** ** Offsets *)
(* @prop C04 control_volume_offsets(c)[j] is c.offset moved by 1/2 along axis j only. *)
Lemma cv_offsets_spec_lem : forall o j, (j < length o)%nat ->
  length (cv_offsets o) = length o /\ nth j (cv_offsets o) [] = offs j (1 # 2) o.
Proof.
  intros o j Hj. unfold cv_offsets. split; [rewrite map_length, seq_length; reflexivity|].
  rewrite nth_map_seq by auto. unfold offs.
  apply (list_ext_nth 0%Q); [rewrite map_length, combine_length, seq_length, upd_length; lia|].
  intros k Hk. rewrite map_length, combine_length, seq_length in Hk.
  rewrite (@nth_map' _ _ _ _ k (0%nat, 0%Q)) by (rewrite combine_length, seq_length; lia).
  rewrite combine_nth by (rewrite seq_length; auto). rewrite seq_nth by lia. simpl.
  destruct (Nat.eqb_spec k j) as [->|Hne]; [rewrite nth_upd_same by auto | rewrite nth_upd_other by auto]; reflexivity.
Qed.
(* @ex *)
Lemma cv_offsets_spec_ex_lem : cv_offsets [(1 # 2)%Q; 1%Q] = [[((1 # 2) + (1 # 2))%Q; 1%Q]; [(1 # 2)%Q; (1 + (1 # 2))%Q]].
Proof. reflexivity. Qed.

(* @prop C04 The j-th cell face is the cell centre moved by 1/2 along axis j, so it equals the j-th control-volume face of a cell-centred variable. *)
Lemma cell_faces_spec_lem : forall g j, (j < gndim g)%nat ->
  length (cell_faces g) = gndim g /\
  off_eq (nth j (cell_faces g) []) (offs j (1 # 2) (cell_center g)) /\
  off_eq (nth j (cell_faces g) []) (nth j (cv_offsets (cell_center g)) []).
Proof.
  intros g j Hj.
  assert (HL : length (cell_center g) = gndim g) by apply repeat_length.
  assert (H1 : off_eq (nth j (cell_faces g) []) (offs j (1 # 2) (cell_center g))).
  { unfold cell_faces. rewrite nth_map_seq by auto. unfold offs.
    apply off_eq_intro; [rewrite map_length, seq_length, upd_length; auto|].
    intros k Hk. rewrite map_length, seq_length in Hk. rewrite nth_map_seq by auto.
    unfold cell_center. destruct (Nat.eqb_spec j k) as [->|Hne].
    - rewrite nth_upd_same by (rewrite repeat_length; auto). rewrite nth_repeat' by auto. reflexivity.
    - rewrite nth_upd_other by auto. rewrite nth_repeat' by auto. reflexivity. }
  split; [unfold cell_faces; rewrite map_length, seq_length; auto|]. split; auto.
  destruct (@cv_offsets_spec_lem (cell_center g) j) as (_ & ->); [lia | auto].
Qed.
(* @ex *)
Lemma cell_faces_spec_ex_lem : off_eq (nth 1 (cell_faces (mkgrid [2%nat; 3%nat] [1%R; 1%R] [])) []) [(1 # 2)%Q; 1%Q].
Proof. vm_compute. repeat constructor. Qed.

(* @prop C04 averaged_offset of arrays that share an offset is that offset (any positive number of arrays). *)
Lemma averaged_offset_spec_lem : forall l o, l <> [] -> (forall u, In u l -> off_eq (goff u) o) -> off_eq (averaged_offset l) o.
Proof.
  intros l o Hn H. destruct l as [|a l']; [congruence|].
  assert (Ha : off_eq (goff a) o) by (apply H; simpl; auto).
  assert (Hs : forall k l0, (forall u, In u l0 -> off_eq (goff u) o) ->
     (qsum (map (fun b => nth k (goff b) 0) l0) == inject_Z (Z.of_nat (length l0)) * nth k o 0)%Q).
  { intros k. induction l0 as [|x l0 IH]; intros Hx.
    - simpl. unfold qsum; simpl. ring.
    - simpl map. unfold qsum. simpl fold_right. fold (qsum (map (fun b => nth k (goff b) 0%Q) l0)).
      rewrite IH by (intros; apply Hx; simpl; auto). rewrite (off_eq_nth k (Hx x ltac:(simpl; auto))).
      simpl length. rewrite Nat2Z.inj_succ, <- Z.add_1_l, inject_Z_plus. ring. }
  unfold averaged_offset.
  apply off_eq_intro; [rewrite map_length, seq_length; apply off_eq_length; auto|].
  intros k Hk. rewrite map_length, seq_length in Hk. rewrite nth_map_seq by auto.
  rewrite (Hs k _ H).
  assert (Hnz : ~ (inject_Z (Z.of_nat (length (a :: l'))) == 0)%Q).
  { unfold Qeq. cbn [Qnum Qden inject_Z length]. lia. }
  field. exact Hnz.
Qed.
(* @ex *)
Lemma averaged_offset_spec_ex_lem : off_eq (averaged_offset [mkga (afull [] 0%R) [(1 # 2)%Q; 1%Q] (mkgrid [] [] []); mkga (afull [] 0%R) [(1 # 2)%Q; 0%Q] (mkgrid [] [] [])]) [(1 # 2)%Q; (1 # 2)%Q].
Proof. vm_compute. repeat constructor. Qed.

(* @prop C04 A GridVariable is built exactly when the boundary conditions have one entry per grid axis; otherwise ValueError. *)
Lemma gridvariable_ndim_lem : forall u b,
  (length (btypes b) = gndim (ggrid u) -> mk_gvar u b = Ok (mkgv u b)) /\
  (length (btypes b) <> gndim (ggrid u) -> mk_gvar u b = Err EValue).
Proof. intros u b. unfold mk_gvar. destruct (Nat.eqb_spec (length (btypes b)) (gndim (ggrid u))); split; intros; (congruence || lia). Qed.
(* @ex *)
Lemma gridvariable_ndim_ex_lem : is_ok (mk_gvar (mkga (afull [2%nat] 0%R) [0%Q] (mkgrid [2%nat] [1%R] [(0%R, 2%R)])) (mkbc [(Periodic, Periodic)] [(None, None)] true)).
Proof. eexists; reflexivity. Qed.
