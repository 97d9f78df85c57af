(** * C88: agreement of boundary conditions across fields *)
From Verif Require Import Prelude NdArr Grids_model Spec Boundaries_model SpecBC.
Set Implicit Arguments.

Lemma lower_btype c ax : (ax < length (btypes (gbc c)))%nat -> (is_periodic_bc c ax = true <-> lower_periodic c ax).
Proof.
  intros H. unfold is_periodic_bc, btype, lower_periodic. rewrite (nth_error_nth' _ (BCOther, BCOther) H). destruct (nth ax _ _) as [t t']. cbn [fst]. split.
  - intros E. exists t'. destruct t; try discriminate E. reflexivity.
  - intros (t2 & E). injection E as -> _. reflexivity.
Qed.
Lemma mapM_ok_iff {A B} (f : A -> result B) (P : A -> Prop) (v : A -> B) : forall l, (forall x, In x l -> (P x -> f x = Ok (v x)) /\ (~ P x -> f x = Err EBC)) -> (forall x, In x l -> P x \/ ~ P x) ->
  ((forall x, In x l -> P x) -> mapM f l = Ok (map v l)) /\ ((exists x, In x l /\ ~ P x) -> mapM f l = Err EBC).
Proof.
  induction l as [|x l IH]; intros H Hdec; [split; [reflexivity | intros (x & [] & _)]|]. destruct IH as (I1 & I2); [intros y Hy; apply H; right; exact Hy | intros y Hy; apply Hdec; right; exact Hy|]. destruct (H x (or_introl eq_refl)) as (F1 & F2). cbn [mapM map]. split.
  - intros HP. rewrite F1 by (apply HP; left; reflexivity). cbn [bind]. rewrite I1 by (intros y Hy; apply HP; right; exact Hy). reflexivity.
  - intros (y & Hy & Hn). destruct (Hdec x (or_introl eq_refl)) as [Hx|Hx]; [|rewrite F2 by exact Hx; reflexivity]. rewrite F1 by exact Hx. cbn [bind]. destruct Hy as [<- | Hy]; [contradiction|]. rewrite I2 by eauto. reflexivity.
Qed.
Lemma agree_dec d cs ax : fields_of d cs -> (ax < d)%nat -> agree_on cs ax \/ ~ agree_on cs ax.
Proof.
  intros H Hax. destruct cs as [|c cs]; [left; intros ? ? []|]. destruct (forallb (fun c' => Bool.eqb (is_periodic_bc c' ax) (is_periodic_bc c ax)) cs) eqn:E.
  - left. rewrite forallb_forall in E. assert (E' : forall x, In x (c :: cs) -> is_periodic_bc x ax = is_periodic_bc c ax) by (intros x [<- | Hx]; [reflexivity | apply Bool.eqb_prop, E; exact Hx]).
    intros x y Hx Hy. rewrite <- (@lower_btype x) by (rewrite (proj2 (H x Hx)); exact Hax). rewrite <- (@lower_btype y) by (rewrite (proj2 (H y Hy)); exact Hax). rewrite (E' x Hx), (E' y Hy). reflexivity.
  - right. intros A. apply Bool.not_true_iff_false in E. apply E. apply forallb_forall. intros x Hx. pose proof (A x c (or_intror Hx) (or_introl eq_refl)) as AE. rewrite <- (@lower_btype x) in AE by (rewrite (proj2 (H x (or_intror Hx))); exact Hax). rewrite <- (@lower_btype c) in AE by (rewrite (proj2 (H c (or_introl eq_refl))); exact Hax).
    apply Bool.eqb_true_iff. destruct (is_periodic_bc x ax), (is_periodic_bc c ax); intuition congruence.
Qed.
(* @prop C88 consistent_boundary_conditions looks only at the lower side of each axis: it succeeds exactly when on every axis the fields are all periodic below or all not, then reports that for every axis, in order, and otherwise raises InconsistentBoundaryConditionsError. *)
Lemma consistent_bc_characterised_lem : forall d c cs, fields_of d (c :: cs) ->
  ((forall ax, (ax < d)%nat -> agree_on (c :: cs) ax) ->
     exists l, consistent_bc (c :: cs) = Ok l /\ length l = d /\ forall ax p, nth_error l ax = Some p -> forall x, In x (c :: cs) -> (p = true <-> lower_periodic x ax)) /\
  ((exists ax, (ax < d)%nat /\ ~ agree_on (c :: cs) ax) -> consistent_bc (c :: cs) = Err EBC).
Proof.
  intros d c cs H. assert (Hc : gndim (ggrid (garray c)) = d) by (apply (H c (or_introl eq_refl))). unfold consistent_bc. rewrite Hc.
  destruct (@mapM_ok_iff nat bool (fun ax => if forallb (fun c' => Bool.eqb (is_periodic_bc c' ax) (is_periodic_bc c ax)) cs then Ok (is_periodic_bc c ax) else Err EBC) (agree_on (c :: cs)) (is_periodic_bc c) (seq 0 d)) as (O & E).
  - intros ax Hax. apply in_seq in Hax. assert (HB : forall x, In x (c :: cs) -> (ax < length (btypes (gbc x)))%nat) by (intros x Hx; rewrite (proj2 (H x Hx)); lia). split.
    + intros A. replace (forallb _ cs) with true; [reflexivity|]. symmetry. apply forallb_forall. intros x Hx. pose proof (A x c (or_intror Hx) (or_introl eq_refl)) as AE. rewrite <- !lower_btype in AE by (apply HB; cbn; auto). apply Bool.eqb_true_iff. destruct (is_periodic_bc x ax), (is_periodic_bc c ax); intuition congruence.
    + intros A. destruct (forallb _ cs) eqn:F; [|reflexivity]. exfalso. apply A. rewrite forallb_forall in F. assert (E' : forall x, In x (c :: cs) -> is_periodic_bc x ax = is_periodic_bc c ax) by (intros x [<- | Hx]; [reflexivity | apply Bool.eqb_prop, F; exact Hx]).
      intros x y Hx Hy. rewrite <- !lower_btype by (apply HB; assumption). rewrite (E' x Hx), (E' y Hy). reflexivity.
  - intros ax Hax. apply in_seq in Hax. apply (agree_dec H). lia.
  - split.
    + intros A. exists (map (is_periodic_bc c) (seq 0 d)). split; [apply O; intros ax Hax; apply in_seq in Hax; apply A; lia|]. split; [rewrite map_length, seq_length; reflexivity|].
      intros ax p Hp x Hx. assert (Hax : (ax < d)%nat) by (rewrite <- (seq_length d 0), <- (map_length (is_periodic_bc c)); apply nth_error_Some; congruence). rewrite (map_nth_error (is_periodic_bc c) ax (seq 0 d) (d := ax)) in Hp by (rewrite (nth_error_nth' _ 0%nat) by (rewrite seq_length; exact Hax); rewrite seq_nth by exact Hax; reflexivity). injection Hp as <-.
      rewrite lower_btype by (rewrite (proj2 (H c (or_introl eq_refl))); exact Hax). apply (A ax Hax); [left; reflexivity | exact Hx].
    + intros (ax & Hax & A). apply E. exists ax. split; [apply in_seq; lia | exact A].
Qed.
(* @prop C88 The pressure boundary conditions derived from a velocity whose components agree on which axes are periodic below: homogeneous, periodic on both sides of exactly those axes and Neumann on both sides of all others - whatever the conditions on the upper sides and whatever the kind of wall. *)
Lemma pressure_bc_characterised_lem : forall d c cs, fields_of d (c :: cs) -> (forall ax, (ax < d)%nat -> agree_on (c :: cs) ax) ->
  exists b, pressure_bc_from_velocity (c :: cs) = Ok b /\ bhom b = true /\ length (btypes b) = d /\ forall ax, (ax < d)%nat ->
    (lower_periodic c ax -> nth_error (btypes b) ax = Some (Periodic, Periodic)) /\ (~ lower_periodic c ax -> nth_error (btypes b) ax = Some (Neumann, Neumann)).
Proof.
  intros d c cs H A. destruct (@consistent_bc_characterised_lem d c cs H) as (O & _). destruct (O A) as (l & E & HL & V). unfold pressure_bc_from_velocity. rewrite E. cbn [bind]. eexists. split; [reflexivity|]. split; [reflexivity|]. cbn [homogeneous btypes]. split; [rewrite map_length; exact HL|].
  intros ax Hax. destruct (nth_error l ax) as [p|] eqn:Ep; [|apply nth_error_None in Ep; lia]. specialize (V ax p Ep c (or_introl eq_refl)). rewrite (map_nth_error _ _ _ Ep). destruct p; split; intros P; try reflexivity; exfalso; [apply P, V; reflexivity | assert (false = true) by (apply V; exact P); discriminate].
Qed.
(* @prop C88 has_all_periodic_boundary_conditions holds exactly when every field is periodic on the lower side of every axis. *)
Lemma all_periodic_characterised_lem : forall d cs, fields_of d cs -> (has_all_periodic cs = true <-> forall c ax, In c cs -> (ax < d)%nat -> lower_periodic c ax).
Proof.
  intros d cs H. unfold has_all_periodic. rewrite forallb_forall. split.
  - intros F c ax Hc Hax. specialize (F c Hc). rewrite forallb_forall in F. apply lower_btype; [rewrite (proj2 (H c Hc)); exact Hax|]. apply F. apply in_seq. rewrite (proj1 (H c Hc)). lia.
  - intros F c Hc. apply forallb_forall. intros ax Hax. apply in_seq in Hax. rewrite (proj1 (H c Hc)) in Hax. apply lower_btype; [rewrite (proj2 (H c Hc)); lia|]. apply F; [exact Hc | lia].
Qed.
Definition pipe_grid : grid := mkgrid [4; 3]%nat [1; 1]%R [(0, 4); (0, 3)]%R.
Definition pipe_field (o : list Q) (t : list (bctype * bctype)) : gvar := mkgv (mkga (mkarr [4; 3]%nat (fun ix => IZR (nth 0 ix 0%Z))) o pipe_grid) (mkbc t (repeat (Some 0%R, Some 0%R) 2) true).
Definition pipe_u : gvar := pipe_field [1; 1 # 2]%Q [(Periodic, Periodic); (Dirichlet, Neumann)].
Definition pipe_w : gvar := pipe_field [1 # 2; 1]%Q [(Periodic, Periodic); (Neumann, Dirichlet)].
(* @ex *)
Lemma consistent_bc_characterised_ex_lem : fields_of 2 [pipe_u; pipe_w] /\ (forall ax, (ax < 2)%nat -> agree_on [pipe_u; pipe_w] ax) /\ consistent_bc [pipe_u; pipe_w] = Ok [true; false] /\
  consistent_bc [pipe_u; pipe_field [1 # 2; 1]%Q [(Neumann, Neumann); (Neumann, Neumann)]] = Err EBC.
Proof.
  split; [intros c [<- | [<- | []]]; split; reflexivity|]. split; [|split; reflexivity].
  intros [|[|ax]] Hax; [| |lia]; intros c c' [<- | [<- | []]] [<- | [<- | []]]; split; intros (t & E); cbn in E; try discriminate E; eexists; reflexivity.
Qed.
(* @ex *)
Lemma pressure_bc_characterised_ex_lem : fields_of 2 [pipe_u; pipe_w] /\ (forall ax, (ax < 2)%nat -> agree_on [pipe_u; pipe_w] ax) /\ lower_periodic pipe_u 0 /\ ~ lower_periodic pipe_u 1.
Proof.
  split; [apply consistent_bc_characterised_ex_lem|]. split; [apply consistent_bc_characterised_ex_lem|]. split; [eexists; reflexivity | intros (t & E); discriminate E].
Qed.
(* @ex *)
Lemma all_periodic_characterised_ex_lem : fields_of 2 [pipe_u; pipe_w] /\ has_all_periodic [pipe_u; pipe_w] = false /\ has_all_periodic [pipe_field [1; 1 # 2]%Q [(Periodic, Periodic); (Periodic, Periodic)]] = true.
Proof. split; [apply consistent_bc_characterised_ex_lem|]. split; reflexivity. Qed.
(* @prop C88 Against the docstring ("checks that the boundary is either periodic or not and throws an error if its mixed"): a boundary that is periodic on one side of an axis and a wall on the other is not detected. It counts as periodic when the lower side is, so the derived pressure is periodic through the wall; the mirror-image conditions count as nonperiodic. Two fields of which only one is mixed also pass. *)
Lemma mixed_boundary_unnoticed_refuted_lem : exists c c' p, fields_of 2 [c; c'; p] /\
  nth_error (btypes (gbc c)) 0 = Some (Periodic, Dirichlet) /\ nth_error (btypes (gbc c')) 0 = Some (Dirichlet, Periodic) /\ both_periodic p 0 /\
  consistent_bc [c] = Ok [true; true] /\ consistent_bc [c'] = Ok [false; true] /\ consistent_bc [c; p] = Ok [true; true] /\ consistent_bc [c; c'] = Err EBC /\ has_all_periodic [c; p] = true /\
  exists b, pressure_bc_from_velocity [c] = Ok b /\ nth_error (btypes b) 0 = Some (Periodic, Periodic).
Proof.
  exists (pipe_field [1; 1 # 2]%Q [(Periodic, Dirichlet); (Periodic, Periodic)]), (pipe_field [1; 1 # 2]%Q [(Dirichlet, Periodic); (Periodic, Periodic)]), (pipe_field [1; 1 # 2]%Q [(Periodic, Periodic); (Periodic, Periodic)]).
  split; [intros c [<- | [<- | [<- | []]]]; split; reflexivity|]. repeat (split; [reflexivity|]). eexists. split; reflexivity.
Qed.
Lemma bounded_dec (P : nat -> Prop) d : (forall ax, (ax < d)%nat -> P ax \/ ~ P ax) -> (forall ax, (ax < d)%nat -> P ax) \/ exists ax, (ax < d)%nat /\ ~ P ax.
Proof.
  induction d as [|d IH]; intros H; [left; intros; lia|]. destruct IH as [A | (ax & Hax & N)]; [intros; apply H; lia | | right; exists ax; split; [lia | exact N]].
  destruct (H d ltac:(lia)) as [Hd|Hd]; [left | right; exists d; split; [lia | exact Hd]]. intros ax Hax. destruct (Nat.eq_dec ax d) as [->|]; [exact Hd | apply A; lia].
Qed.
Lemma nth_error_same {A} : forall l l' : list A, (forall i, nth_error l i = nth_error l' i) -> l = l'.
Proof.
  induction l as [|x l IH]; intros [|y l'] H; [reflexivity | specialize (H 0%nat); discriminate H | specialize (H 0%nat); discriminate H|].
  f_equal; [specialize (H 0%nat); injection H as ->; reflexivity | apply IH; intros i; exact (H (S i))].
Qed.
(* @prop C88 On properly built conditions (each axis of each field periodic on both sides or on neither) the check is what the docstring says: it succeeds exactly when every axis is periodic for all fields or for none, for the fields in any order. *)
Lemma consistent_bc_proper_lem : forall d cs, cs <> [] -> fields_of d cs -> (forall c ax, In c cs -> (ax < d)%nat -> both_periodic c ax \/ none_periodic c ax) ->
  ((exists l, consistent_bc cs = Ok l) <-> forall ax, (ax < d)%nat -> (forall c, In c cs -> both_periodic c ax) \/ (forall c, In c cs -> none_periodic c ax)) /\
  (forall cs', Permutation cs cs' -> consistent_bc cs' = consistent_bc cs).
Proof.
  intros d cs Hne H HP. assert (LP : forall c ax, In c cs -> (ax < d)%nat -> (lower_periodic c ax <-> both_periodic c ax)).
  { intros c ax Hc Hax. split; [|intros B; exists Periodic; exact B]. intros (t & E). destruct (HP c ax Hc Hax) as [B | (t1 & t2 & E' & N & _)]; [exact B|]. rewrite E in E'. injection E' as <- <-. contradiction. }
  split.
  - destruct cs as [|c cs]; [contradiction|]. destruct (@consistent_bc_characterised_lem d c cs H) as (O & F). split.
    + intros (l & E) ax Hax. assert (A : agree_on (c :: cs) ax). { destruct (agree_dec H Hax) as [A|A]; [exact A|]. rewrite F in E by eauto. discriminate E. }
      destruct (HP c ax (or_introl eq_refl) Hax) as [B|N].
      * left. intros x Hx. apply LP; [exact Hx | exact Hax|]. apply (A c x (or_introl eq_refl) Hx). exists Periodic; exact B.
      * right. intros x Hx. destruct (HP x ax Hx Hax) as [B|N']; [|exact N']. exfalso. assert (L : lower_periodic c ax) by (apply (A x c Hx (or_introl eq_refl)); exists Periodic; exact B). destruct N as (t1 & t2 & E1 & N1 & _). destruct L as (t & E2). rewrite E1 in E2. injection E2 as -> _. contradiction.
    + intros A. destruct (O ltac:(intros ax Hax x y Hx Hy; destruct (A ax Hax) as [B|N]; [split; intros _; exists Periodic; [apply (B y Hy) | apply (B x Hx)] | split; intros (t & E); [destruct (N x Hx) as (t1 & t2 & E1 & N1 & _) | destruct (N y Hy) as (t1 & t2 & E1 & N1 & _)]; rewrite E1 in E; injection E as -> _; contradiction])) as (l & E & _). eauto.
  - intros cs' P. destruct cs as [|c cs]; [contradiction|]. destruct cs' as [|c' cs']; [exfalso; apply (@Permutation_nil_cons _ cs c); apply Permutation_sym; exact P|].
    assert (H' : fields_of d (c' :: cs')) by (intros x Hx; apply H; apply (Permutation_in x (Permutation_sym P)); exact Hx).
    destruct (@consistent_bc_characterised_lem d c cs H) as (O & F). destruct (@consistent_bc_characterised_lem d c' cs' H') as (O' & F').
    assert (AA : forall ax, agree_on (c :: cs) ax <-> agree_on (c' :: cs') ax).
    { intros ax. split; intros A x y Hx Hy; apply A; first [apply (Permutation_in _ (Permutation_sym P)); assumption | apply (Permutation_in _ P); assumption]. }
    destruct (consistent_bc (c :: cs)) as [l|e] eqn:E.
    + assert (A : forall ax, (ax < d)%nat -> agree_on (c :: cs) ax). { intros ax Hax. destruct (agree_dec H Hax) as [A|A]; [exact A|]. assert (N : Ok l = Err EBC) by (apply F; eauto). discriminate N. }
      destruct (O A) as (l1 & E1 & L1 & V1). injection E1 as <-. destruct (O' ltac:(intros ax Hax; apply AA, A, Hax)) as (l2 & E2 & L2 & V2). rewrite E2. f_equal.
      apply nth_error_same. intros ax. destruct (Nat.lt_ge_cases ax d) as [Hax|Hax]; [|rewrite !(proj2 (nth_error_None _ _)) by lia; reflexivity].
      destruct (nth_error l ax) as [p|] eqn:P1; [|apply nth_error_None in P1; lia]. destruct (nth_error l2 ax) as [q|] eqn:P2; [|apply nth_error_None in P2; lia]. f_equal.
      pose proof (V1 ax p P1 c (or_introl eq_refl)) as W1. pose proof (V2 ax q P2 c (Permutation_in c P (or_introl eq_refl))) as W2. destruct p, q; intuition congruence.
    + destruct (@bounded_dec (agree_on (c :: cs)) d (fun ax Hax => agree_dec H Hax)) as [A | (ax & Hax & A)]; [destruct (O A) as (l1 & E1 & _); discriminate E1|].
      rewrite F by eauto. apply F'. exists ax. split; [exact Hax|]. rewrite <- AA. exact A.
Qed.
(* @ex *)
Lemma consistent_bc_proper_ex_lem : let cs := [pipe_u; pipe_w; pipe_field [1 # 2; 1 # 2]%Q [(Periodic, Periodic); (Neumann, Neumann)]] in cs <> [] /\ fields_of 2 cs /\ (forall c ax, In c cs -> (ax < 2)%nat -> both_periodic c ax \/ none_periodic c ax) /\
  consistent_bc cs = Ok [true; false].
Proof.
  cbv zeta. split; [discriminate|]. split; [intros c [<- | [<- | [<- | []]]]; split; reflexivity|]. split; [|reflexivity].
  intros c [|[|ax]] Hc Hax; [left | right | lia]; destruct Hc as [<- | [<- | [<- | []]]]; try reflexivity; do 2 eexists; (split; [reflexivity | split; intros X; discriminate X]).
Qed.
