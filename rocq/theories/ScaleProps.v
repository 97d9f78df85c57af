(** * C93: scaling grid variables *)
From Verif Require Import Prelude NdArr Grids_model GridProps Spec Boundaries_model BoundariesPeriodic WallBC PRep PeriodicBCProps WallBCProps ImposeProps ArrayUtilsProps Towers_model Scale_model.
Set Implicit Arguments.
Local Open Scope Z_scope.

Lemma scaled_array u s : exists y, array_ufunc (raw2 Rmult) [OGA u; OScalar s] = Ok y /\ ggrid y = ggrid u /\ goff y = goff u /\ shp (gdata y) = shp (gdata u) /\
  forall ix, inb (shp (gdata u)) ix -> get (gdata y) ix = (get (gdata u) ix * s)%R.
Proof.
  unfold array_ufunc. cbn. unfold raw2. destruct (shape_eqb (shp (gdata u)) []) eqn:E.
  - unfold shape_eqb in E. destruct (list_eq_dec Nat.eq_dec (shp (gdata u)) []) as [E0|]; [|discriminate E].
    eexists. split; [reflexivity|]. repeat split; try reflexivity.
  - destruct (shp (gdata u)) eqn:Es; [discriminate E|]. eexists. split; [reflexivity|]. cbn [gdata ggrid goff]. repeat split; try reflexivity. cbn. congruence.
Qed.
Lemma regular_congr b u r : ggrid r = ggrid u -> off_eq (goff r) (goff u) -> (forall a, (a < gndim (ggrid u))%nat -> regular_axis b u a) -> length (goff u) = gndim (ggrid u) -> forall a, (a < gndim (ggrid r))%nat -> regular_axis b r a.
Proof.
  intros Hg Ho Hreg Hl. rewrite Hg. intros a Ha.
  assert (Hn : (nth a (goff r) 0 == nth a (goff u) 0)%Q) by (apply (@Forall2_nth' _ _ _ _ _ a 0%Q 0%Q Ho); rewrite (off_eq_length Ho), Hl; exact Ha).
  destruct (Hreg a Ha) as [Hp|[Hc|He]]; [left; auto | right; left | right; right].
  - unfold centred in *. rewrite Hn. exact Hc.
  - unfold edge_side in *. destruct (nth_error (btypes b) a) as [[[] []]|]; auto. destruct (nth_error (bvals b) a) as [[[lo|] [hi|]]|]; auto.
    assert (Hq : forall q, Qeq_bool (nth a (goff r) 0%Q) q = Qeq_bool (nth a (goff u) 0%Q) q) by (intros q; apply eq_true_iff_eq; rewrite !Qeq_bool_iff, Hn; reflexivity).
    rewrite !Hq. auto.
Qed.
Lemma overr_cases b u k ix : (forall x, overr b u k ix x = x) \/ exists v, forall x, overr b u k ix x = v.
Proof. induction k as [|k IH]; [left; reflexivity|]. cbn [overr]. destruct (wall_value b u k ix); [right; eauto | exact IH]. Qed.
Lemma overr_congr b u r k ix x : ggrid r = ggrid u -> off_eq (goff r) (goff u) -> overr b r k ix x = overr b u k ix x.
Proof. intros Hg Ho. induction k as [|k IH]; [reflexivity|]. cbn [overr]. rewrite (@wall_value_congr b u r k ix Hg Ho), IH. reflexivity. Qed.

(** A variable on a well-formed grid, every axis of which is periodic, cell-centred, or edge-aligned between Dirichlet walls. *)
Definition regular_var (u : gvar) : Prop :=
  wf_garr (garray u) /\ length (btypes (gbc u)) = gndim (ggrid (garray u)) /\ forall a, (a < gndim (ggrid (garray u)))%nat -> regular_axis (gbc u) (garray u) a.
Lemma scale_one s u : regular_var u -> exists r, (let* y := array_ufunc (raw2 Rmult) [OGA (garray u); OScalar s] in impose_bc (gbc u) y) = Ok r /\
  gbc r = gbc u /\ ggrid (garray r) = ggrid (garray u) /\ off_eq (goff (garray r)) (goff (garray u)) /\ shp (gdata (garray r)) = gshape (ggrid (garray u)) /\ regular_var r /\
  forall ix, inb (gshape (ggrid (garray u))) ix -> get (gdata (garray r)) ix = overr (gbc u) (garray u) (gndim (ggrid (garray u))) ix (get (gdata (garray u)) ix * s)%R.
Proof.
  intros (Hw & Hb & Hr). destruct (scaled_array (garray u) s) as (y & Ey & Gy & Oy & Sy & Vy). rewrite Ey. cbn [bind]. pose proof Hw as (W1 & W2 & W3).
  assert (Ho : off_eq (goff y) (goff (garray u))) by (rewrite Oy; apply Forall2_intro_nth with (da := 0%Q) (db := 0%Q); [reflexivity | intros; reflexivity]).
  assert (Hwy : wf_garr y) by (split; [rewrite Gy; exact W1|]; split; [rewrite Sy, Gy; exact W2 | rewrite Oy, Gy; exact W3]).
  destruct (@impose_regular (gbc u) y Hwy (@regular_congr _ _ _ Gy Ho Hr W3)) as (r & Er & R1 & R2 & R3 & R4); [rewrite Gy; exact Hb|].
  exists (mkgv r (gbc u)). split; [exact Er|]. cbn [garray gbc]. split; [reflexivity|]. rewrite Gy in *. rewrite Oy in *. split; [exact R1|]. split; [exact R2|]. split; [exact R3|]. split.
  - unfold regular_var. cbn [garray gbc]. split; [split; [rewrite R1; exact W1|]; split; [rewrite R1; exact R3 | rewrite (off_eq_length R2), R1; exact W3]|]. split; [rewrite R1; exact Hb|]. apply (@regular_congr _ (garray u) r R1 R2 Hr W3).
  - intros ix Hix. rewrite R4 by (rewrite ?R3; exact Hix). rewrite Vy by (rewrite W2; exact Hix). apply overr_congr; [exact Gy | rewrite Oy; exact Ho].
Qed.

(* @prop C93 fixed_scale_gridvar on any tuple of variables that on every axis are periodic, cell-centred, or edge-aligned between Dirichlet walls, for every factor: it succeeds with one variable per input, on the same grid, offset and boundary conditions; entries on no wall are multiplied by the factor; entries on a wall are not scaled but get the value of the wall (where walls of several axes meet, of the last such axis). *)
Lemma scale_keeps_walls_lem : forall (s : R) (axes : list nat) (v : list gvar), (forall u, In u v -> regular_var u) ->
  exists w, fixed_scale_gridvar s v axes = Ok w /\
    Forall2 (fun u r => gbc r = gbc u /\ ggrid (garray r) = ggrid (garray u) /\ off_eq (goff (garray r)) (goff (garray u)) /\ shp (gdata (garray r)) = gshape (ggrid (garray u)) /\
      forall ix, inb (gshape (ggrid (garray u))) ix ->
        ((forall a, (a < gndim (ggrid (garray u)))%nat -> wall_value (gbc u) (garray u) a ix = None) -> get (gdata (garray r)) ix = (s * get (gdata (garray u)) ix)%R) /\
        (forall a x, (a < gndim (ggrid (garray u)))%nat -> wall_value (gbc u) (garray u) a ix = Some x ->
           (forall a', (a < a' < gndim (ggrid (garray u)))%nat -> wall_value (gbc u) (garray u) a' ix = None) -> get (gdata (garray r)) ix = x)) v w.
Proof.
  intros s axes v H. unfold fixed_scale_gridvar. apply mapM_F2. intros u Hu. destruct (@scale_one s u (H u Hu)) as (r & E & B & G & O & S & _ & V). exists r. split; [exact E|].
  split; [exact B|]. split; [exact G|]. split; [exact O|]. split; [exact S|]. intros ix Hix. rewrite (V ix Hix). split.
  - intros K. rewrite overr_none by exact K. ring.
  - intros a x Ha Hx K. eapply overr_last; eassumption.
Qed.
(** Flow along a channel, with a moving upper wall. *)
Definition wall_var : gvar := mkgv exv (exb Dirichlet Dirichlet).
Lemma wall_var_regular : regular_var wall_var.
Proof. split; [exact exv_wf|]. split; [reflexivity | exact exv_regular]. Qed.
(* @ex *)
Lemma scale_keeps_walls_ex_lem : (forall u, In u [wall_var] -> regular_var u) /\ wall_value (gbc wall_var) (garray wall_var) 1 (ix2 1 2) = Some 7%R /\
  exists r, fixed_scale_gridvar 2 [wall_var] [] = Ok [r] /\ get (gdata (garray r)) (ix2 1 2) = 7%R /\ get (gdata (garray r)) (ix2 1 1) = 22%R.
Proof.
  assert (Hv : forall u, In u [wall_var] -> regular_var u) by (intros u [<- |[]]; exact wall_var_regular). split; [exact Hv|]. split; [reflexivity|].
  destruct (@scale_keeps_walls_lem 2 [] [wall_var] Hv) as (w & E & F). inversion F as [|? r ? l Hr Hl]; subst. inversion Hl; subst. exists r. split; [exact E|]. destruct Hr as (_ & _ & _ & _ & V). split.
  - destruct (V (ix2 1 2)) as [_ Hb]; [simpl; lia|]. apply (Hb 1%nat); [unfold gndim; simpl; lia | reflexivity | unfold gndim; simpl; intros; lia].
  - destruct (V (ix2 1 1)) as [Ha _]; [simpl; lia|]. rewrite Ha; [cbn; lra|]. unfold gndim; simpl. intros [|[|a]] Hlt; [reflexivity | reflexivity | lia].
Qed.

(* @prop C93 Scalings compose: scaling by s and then by t gives, entry by entry, the result of scaling by t * s at once, for all factors and every such tuple. *)
Lemma scalings_compose_lem : forall (s t : R) (axes axes' : list nat) (v : list gvar), (forall u, In u v -> regular_var u) ->
  exists w w1 w2, fixed_scale_gridvar s v axes = Ok w /\ fixed_scale_gridvar t w axes' = Ok w1 /\ fixed_scale_gridvar (t * s) v axes = Ok w2 /\
    Forall2 (fun a b => gbc a = gbc b /\ same_field (garray a) (garray b)) w1 w2.
Proof.
  intros s t axes axes' v. unfold fixed_scale_gridvar. induction v as [|u v IH]; intros H; [exists [], [], []; repeat split; constructor|].
  destruct IH as (w & w1 & w2 & E & E1 & E2 & F); [intros x Hx; apply H; right; exact Hx|]. cbn [mapM]. specialize (H u (or_introl eq_refl)).
  destruct (@scale_one s u H) as (r & Er & B & G & O & S & Hr & V). destruct (@scale_one t r Hr) as (r1 & Er1 & B1 & G1 & O1 & S1 & _ & V1). destruct (@scale_one (t * s) u H) as (r2 & Er2 & B2 & G2 & O2 & S2 & _ & V2).
  exists (r :: w), (r1 :: w1), (r2 :: w2). rewrite Er, Er2, E, E2. cbn [bind mapM]. rewrite Er1. cbn [bind]. rewrite E1. cbn [bind]. split; [reflexivity|]. split; [reflexivity|]. split; [reflexivity|].
  constructor; [|exact F]. split; [congruence|]. split; [congruence|]. split; [|split].
  - eapply off_eq_trans; [eapply off_eq_trans; [exact O1 | exact O] | apply off_eq_sym; exact O2].
  - congruence.
  - intros ix Hix. rewrite S1, G in Hix. rewrite V1 by (rewrite G; exact Hix). rewrite B, G, (@overr_congr (gbc u) (garray u) (garray r) _ _ _ G O), V, V2 by exact Hix.
    destruct (overr_cases (gbc u) (garray u) (gndim (ggrid (garray u))) ix) as [K|(x & K)]; rewrite !K; [ring | reflexivity].
Qed.
(* @ex *)
Lemma scalings_compose_ex_lem : forall u, In u [wall_var; wall_var] -> regular_var u.
Proof. intros u [<- |[<- |[]]]; exact wall_var_regular. Qed.

(* @prop C93 Scaling is undone by scaling with the inverse factor: for every nonzero factor and every such tuple whose variables already satisfy their wall conditions (impose_bc leaves them as they are), scaling by s and then by 1/s returns the same fields. *)
Lemma scaling_is_undone_lem : forall (s : R) (axes : list nat) (v : list gvar), s <> 0%R -> (forall u, In u v -> regular_var u) ->
  (forall u, In u v -> exists r, impose_bc (gbc u) (garray u) = Ok r /\ same_field (garray r) (garray u)) ->
  exists w w1, fixed_scale_gridvar s v axes = Ok w /\ fixed_scale_gridvar (/ s) w axes = Ok w1 /\ Forall2 (fun a b => gbc a = gbc b /\ same_field (garray a) (garray b)) w1 v.
Proof.
  intros s axes v Hs. unfold fixed_scale_gridvar. induction v as [|u v IH]; intros H K; [exists [], []; repeat split; constructor|].
  destruct IH as (w & w1 & E & E1 & F); [intros x Hx; apply H; right; exact Hx | intros x Hx; apply K; right; exact Hx|]. cbn [mapM]. specialize (H u (or_introl eq_refl)). destruct (K u (or_introl eq_refl)) as (q & Eq & _ & _ & Sq & Vq).
  destruct (@scale_one s u H) as (r & Er & B & G & O & S & Hr & V). destruct (@scale_one (/ s) r Hr) as (r1 & Er1 & B1 & G1 & O1 & S1 & _ & V1).
  exists (r :: w), (r1 :: w1). rewrite Er, E. cbn [bind mapM]. rewrite Er1. cbn [bind]. rewrite E1. cbn [bind]. split; [reflexivity|]. split; [reflexivity|]. constructor; [|exact F]. split; [congruence|]. split; [congruence|].
  split; [eapply off_eq_trans; [exact O1 | exact O]|]. destruct H as (Hw & Hb & Hreg). split; [rewrite S1, G; symmetry; apply Hw|].
  destruct (@impose_regular (gbc u) (garray u) Hw Hreg Hb) as (q' & Eq' & _ & _ & Sq' & Vq'). rewrite Eq in Eq'. injection Eq' as ->. cbn [garray] in *.
  intros ix Hix. rewrite S1, G in Hix. rewrite V1 by (rewrite G; exact Hix). rewrite B, G, (@overr_congr (gbc u) (garray u) (garray r) _ _ _ G O), V by exact Hix.
  assert (Q : overr (gbc u) (garray u) (gndim (ggrid (garray u))) ix (get (gdata (garray u)) ix) = get (gdata (garray u)) ix) by (rewrite <- Vq' by (rewrite ?Sq'; exact Hix); apply Vq; cbn [garray]; rewrite ?Sq'; exact Hix).
  destruct (overr_cases (gbc u) (garray u) (gndim (ggrid (garray u))) ix) as [L|(x & L)]; rewrite !L in *; [field; exact Hs | exact Q].
Qed.
(* @ex *)
Lemma scaling_is_undone_ex_lem : exists u, regular_var u /\ wall_value (gbc u) (garray u) 1 (ix2 1 2) = Some 7%R /\ exists r, impose_bc (gbc u) (garray u) = Ok r /\ same_field (garray r) (garray u).
Proof.
  destruct (@impose_bc_idempotent_lem (exb Dirichlet Dirichlet) exv exv_wf eq_refl exv_regular) as (r & r2 & E & E2 & S).
  destruct (@impose_regular (exb Dirichlet Dirichlet) exv exv_wf exv_regular eq_refl) as (r' & E' & G & O & Sh & _). rewrite E in E'. injection E' as <-.
  exists (mkgv r (exb Dirichlet Dirichlet)). destruct exv_wf as (W1 & W2 & W3). split; [|split].
  - unfold regular_var. cbn [garray gbc]. split; [split; [rewrite G; exact W1|]; split; [rewrite G; exact Sh | rewrite (off_eq_length O), G; exact W3]|]. split; [rewrite G; reflexivity|].
    apply (@regular_congr _ exv r G O exv_regular W3).
  - cbn [garray gbc]. rewrite (@wall_value_congr _ exv r 1 (ix2 1 2) G O). reflexivity.
  - exists (mkgv r2 (exb Dirichlet Dirichlet)). split; [exact E2 | exact S].
Qed.

(* @prop C93 fixed_scale on any array: it never fails, keeps the shape, sends the constant 1 to rescaled_one, respects sums and multiples of arrays, and scaling by s and then by t is scaling by s times t. *)
Lemma fixed_scale_linear_lem : forall (s t a : R) (x x' : arr R) (axes axes' : list nat), exists y y' z,
  fixed_scale s x axes = Ok y /\ fixed_scale s x' axes = Ok y' /\ fixed_scale t y axes' = Ok z /\ shp y = shp x /\ shp z = shp x /\
  (forall ix, get x ix = 1%R -> get y ix = s) /\
  (forall ix, get z ix = (s * t * get x ix)%R) /\
  exists w, fixed_scale s (amap2 (fun p q => a * p + q)%R x x') axes = Ok w /\ shp w = shp x /\ forall ix, get w ix = (a * get y ix + get y' ix)%R.
Proof.
  intros s t a x x' axes axes'. unfold fixed_scale. do 3 eexists. split; [reflexivity|]. split; [reflexivity|]. split; [reflexivity|]. cbn [shp get amap amap2]. split; [reflexivity|]. split; [reflexivity|].
  split; [intros ix H; rewrite H; ring|]. split; [intros ix; ring|]. eexists. split; [reflexivity|]. split; [reflexivity|]. intros ix. cbn [get amap amap2]. ring.
Qed.
(* @ex *)
Lemma fixed_scale_linear_ex_lem : exists y, fixed_scale 5 (mkarr [2%nat] (fun ix => IZR (nth 0 ix 0 + 1))) [0%nat] = Ok y /\ shp y = [2%nat] /\ get y [0] = 5%R /\ get y [1] = 10%R.
Proof. eexists. split; [reflexivity|]. split; [reflexivity|]. split; cbn; lra. Qed.
