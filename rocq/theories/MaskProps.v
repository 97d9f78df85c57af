(** * C90: interior masks and interior grids *)
From Coq Require Import Qreals.
From Verif Require Import Prelude NdArr Grids_model Spec PRep FDProofs GridProps NetworksProps SpecMask.
Set Implicit Arguments.
Local Open Scope R_scope.

(** ** The product of the factors of a mask *)
Definition factor (b : bool) : R := if b then 0 else 1.
Lemma mask_fold (T : Type) (u v : T -> bool) : forall (l : list T) acc, (acc = 0 \/ acc = 1) ->
  let r := fold_left (fun acc p => acc * factor (u p) * factor (v p)) l acc in
  (r = 0 \/ r = 1) /\ (r = 1 <-> acc = 1 /\ forall p, In p l -> u p = false /\ v p = false).
Proof.
  induction l as [|p l IH]; intros acc H; cbn [fold_left]; cbv zeta.
  - split; [exact H|]. split; [intros E; split; [exact E|intros p []] | tauto].
  - assert (H' : acc * factor (u p) * factor (v p) = 0 \/ acc * factor (u p) * factor (v p) = 1) by (unfold factor; destruct H as [-> | ->], (u p), (v p); first [left; lra | right; lra]).
    destruct (IH _ H') as (A & B). cbv zeta in A, B. split; [exact A|]. rewrite B. split.
    + intros (E & F). assert (acc = 1 /\ u p = false /\ v p = false) by (unfold factor in E; destruct H as [-> | ->], (u p), (v p); try lra; tauto). split; [tauto|]. intros q [<- | Hq]; [tauto | auto].
    + intros (E & F). destruct (F p (or_introl eq_refl)) as (F1 & F2). split; [rewrite E, F1, F2; unfold factor; lra | intros q Hq; apply F; right; exact Hq].
Qed.
Lemma risclose_refl b : risclose b b = true.
Proof. unfold risclose. rewrite Rminus_diag_eq, Rabs_R0 by reflexivity. pose proof (Rabs_pos b). destruct (Rle_dec _ _) as [|N]; [reflexivity|]. destruct N. lra. Qed.
Lemma mask_val g o : wfg g -> length o = gndim g ->
  exists k, interior_mask g o = Ok k /\ shp k = gshape g /\ forall ix, (get k ix = 0 \/ get k ix = 1) /\
    (get k ix = 1 <-> forall a, (a < gndim g)%nat -> risclose (coord g o a ix) (upper g a) = false /\ risclose (coord g o a ix) (lower g a) = false).
Proof.
  intros Hw Ho. destruct (proj1 (@mesh_points_lem g o Hw) Ho) as (m & Em & Lm & Gm). unfold interior_mask. rewrite Em. cbn [bind]. eexists. split; [reflexivity|]. split; [reflexivity|]. intros ix. cbn [get].
  pose proof (@mask_fold (nat * arr R) (fun p => risclose (get (snd p) ix) (upper g (fst p))) (fun p => risclose (get (snd p) ix) (lower g (fst p))) (combine (seq 0 (length m)) m) 1 (or_intror eq_refl)) as (A & B). cbv zeta in A, B.
  assert (E : forall l acc, fold_left (fun acc ix_x => let '(i, x) := ix_x in let '(lo, hi) := nth i (gdomain g) (0, 0) in acc * (if risclose (get x ix) hi then 0 else 1) * (if risclose (get x ix) lo then 0 else 1)) l acc = fold_left (fun acc p => acc * factor (risclose (get (snd p) ix) (upper g (fst p))) * factor (risclose (get (snd p) ix) (lower g (fst p)))) l acc).
  { induction l as [|(i, x) l IH]; intros acc; [reflexivity|]. cbn [fold_left fst snd]. rewrite IH. unfold upper, lower, factor. destruct (nth i (gdomain g) (0, 0)) as (lo, hi). reflexivity. }
  rewrite E. split; [exact A|]. rewrite B. split.
  - intros (_ & H) a Ha. destruct (Gm a Ha) as (_ & G). specialize (H (a, nth a m (afull [] 0))). cbn [fst snd] in H. rewrite G in H. apply H.
    replace (a, nth a m (afull [] 0)) with (nth a (combine (seq 0 (length m)) m) (0%nat, afull [] 0)) by (rewrite combine_nth by apply seq_length; rewrite seq_nth by lia; reflexivity). apply nth_In. rewrite combine_length, seq_length. lia.
  - intros H. split; [reflexivity|]. intros p Hp. apply (In_nth _ _ (0%nat, afull [] 0)) in Hp. destruct Hp as (a & Ha & <-). rewrite combine_length, seq_length in Ha. assert (Ha' : (a < gndim g)%nat) by lia. rewrite combine_nth by apply seq_length. rewrite seq_nth by lia. cbn [fst snd Nat.add]. destruct (Gm a Ha') as (_ & G). rewrite G. exact (H a Ha').
Qed.
Lemma face_half g f a : (f < gndim g)%nat -> (a < gndim g)%nat -> Q2R (nth a (nth f (cell_faces g) []) 0%Q) = if (f =? a)%nat then 1 else 1 / 2.
Proof. intros Hf Ha. rewrite face_nth by assumption. destruct (f =? a)%nat; unfold Q2R; cbn; lra. Qed.
Lemma inb_nth s ix : inb s ix -> forall a, (a < length s)%nat -> (0 <= nth a ix 0 < Z.of_nat (nth a s 0%nat))%Z.
Proof. revert ix. induction s as [|n s IH]; intros [|i ix] H a Ha; cbn in *; try tauto; try lia. destruct a as [|a]; [tauto|]. apply IH; [tauto|lia]. Qed.
Lemma face_pos g f ix a : box g -> (f < gndim g)%nat -> (a < gndim g)%nat -> inb (gshape g) ix ->
  hstep g a / 2 <= coord g (nth f (cell_faces g) []) a ix - lower g a /\
  (f <> a -> hstep g a / 2 <= upper g a - coord g (nth f (cell_faces g) []) a ix) /\
  (f = a -> upper g a - coord g (nth f (cell_faces g) []) a ix = IZR (Z.of_nat (nth a (gshape g) 0%nat) - 1 - nth a ix 0%Z) * hstep g a).
Proof.
  intros (Hw & Hb) Hf Ha Hi. destruct (Hb a Ha) as (P & E). pose proof (@inb_nth _ _ Hi a Ha) as (I1 & I2). unfold coord. fold (lower g a). rewrite face_half by assumption.
  assert (J1 : 0 <= IZR (nth a ix 0%Z)) by (apply IZR_le; exact I1). assert (J2 : IZR (nth a ix 0%Z) + 1 <= INR (nth a (gshape g) 0%nat)) by (rewrite INR_IZR_INZ, <- plus_IZR; apply IZR_le; lia).
  destruct (Nat.eqb_spec f a) as [->|Hne].
  - split; [nra|]. split; [intros K; destruct K; reflexivity|]. intros _. rewrite !minus_IZR, <- INR_IZR_INZ. nra.
  - split; [nra|]. split; [intros _; nra|]. intros K. destruct (Hne K).
Qed.

Lemma masks_list g : wfg g -> exists m, domain_interior_masks g = Ok m /\ length m = gndim g /\
  forall f, (f < gndim g)%nat -> let k := nth f m (afull [] 0) in let o := nth f (cell_faces g) [] in shp k = gshape g /\ forall ix, (get k ix = 0 \/ get k ix = 1) /\
    (get k ix = 1 <-> forall a, (a < gndim g)%nat -> risclose (coord g o a ix) (upper g a) = false /\ risclose (coord g o a ix) (lower g a) = false).
Proof.
  intros Hw. unfold domain_interior_masks. assert (HF : forall o, In o (cell_faces g) -> length o = gndim g).
  { intros o Ho. unfold cell_faces in Ho. apply in_map_iff in Ho. destruct Ho as (i & <- & _). rewrite map_length, seq_length. reflexivity. }
  assert (HL : length (cell_faces g) = gndim g) by (unfold cell_faces; rewrite map_length, seq_length; reflexivity).
  assert (EX : exists m, mapM (interior_mask g) (cell_faces g) = Ok m).
  { clear HL. induction (cell_faces g) as [|o l IH]; [eexists; reflexivity|]. destruct (@mask_val g o Hw (HF o (or_introl eq_refl))) as (k & Ek & _). destruct IH as (m & Em); [intros; apply HF; right; assumption|]. exists (k :: m). cbn [mapM]. rewrite Ek. cbn [bind]. rewrite Em. reflexivity. }
  destruct EX as (m & Em). exists m. split; [exact Em|]. apply mapM_Ok_inv in Em. pose proof (Forall2_length' Em) as Lm. split; [lia|]. intros f Hf. cbv zeta.
  assert (EF : interior_mask g (nth f (cell_faces g) []) = Ok (nth f m (afull [] 0))).
  { assert (Hf' : (f < length (cell_faces g))%nat) by lia. clear -Em Hf'. revert f Hf'. induction Em as [|x y l l' H HF IH]; intros f Hf; cbn in Hf; [lia|]. destruct f as [|f]; [exact H|]. apply IH. lia. }
  destruct (@mask_val g (nth f (cell_faces g) []) Hw ltac:(apply HF, nth_In; lia)) as (k & Ek & K). rewrite EF in Ek. assert (k = nth f m (afull [] 0)) by congruence. subst k. exact K.
Qed.
Lemma not_close x b : (1 / 100000000 + 1 / 100000 * Rabs b < Rabs (x - b)) -> risclose x b = false.
Proof. intros H. unfold risclose. destruct (Rle_dec _ _); [lra|reflexivity]. Qed.

(* @prop C90 domain_interior_masks returns one array of zeros and ones per axis; on a grid whose half cells are wider than the tolerance of isclose the one of axis f is one exactly at the faces normal to f strictly inside the domain, that is, everywhere but on the last layer of cells. *)
Lemma interior_masks_lem : forall g, box g -> resolved g ->
  exists m, domain_interior_masks g = Ok m /\ length m = gndim g /\
    forall f, (f < gndim g)%nat -> shp (nth f m (afull [] 0)) = gshape g /\
      forall ix, inb (gshape g) ix ->
        get (nth f m (afull [] 0)) ix = (if (nth f ix 0 =? Z.of_nat (nth f (gshape g) 0%nat) - 1)%Z then 0 else 1) /\
        (get (nth f m (afull [] 0)) ix = 1 <-> inside g (nth f (cell_faces g) []) ix).
Proof.
  intros g Hb Hr. pose proof Hb as (Hw & Hb'). destruct (masks_list Hw) as (m & Em & Lm & Gm). exists m. split; [exact Em|]. split; [exact Lm|]. intros f Hf. destruct (Gm f Hf) as (S & V). cbv zeta in S, V. split; [exact S|]. intros ix Hi. destruct (V ix) as (Z & O).
  assert (LO : forall a, (a < gndim g)%nat -> risclose (coord g (nth f (cell_faces g) []) a ix) (lower g a) = false).
  { intros a Ha. destruct (@face_pos g f ix a Hb Hf Ha Hi) as (P & _). apply not_close. pose proof (Hr a _ Ha (or_introl eq_refl)). pose proof (Rle_abs (coord g (nth f (cell_faces g) []) a ix - lower g a)). lra. }
  assert (UP : forall a, (a < gndim g)%nat -> f <> a -> risclose (coord g (nth f (cell_faces g) []) a ix) (upper g a) = false).
  { intros a Ha Hne. destruct (@face_pos g f ix a Hb Hf Ha Hi) as (_ & P & _). specialize (P Hne). apply not_close. pose proof (Hr a _ Ha (or_intror eq_refl)). rewrite Rabs_minus_sym. pose proof (Rle_abs (upper g a - coord g (nth f (cell_faces g) []) a ix)). lra. }
  destruct (@face_pos g f ix f Hb Hf Hf Hi) as (_ & _ & Pf). specialize (Pf eq_refl). destruct (Hb' f Hf) as (Hp & _). pose proof (@inb_nth _ _ Hi f Hf) as Hif.
  destruct (Z.eqb_spec (nth f ix 0%Z) (Z.of_nat (nth f (gshape g) 0%nat) - 1)) as [E|E].
  - assert (C : coord g (nth f (cell_faces g) []) f ix = upper g f) by (rewrite E, Z.sub_diag in Pf; lra). assert (N : get (nth f m (afull [] 0)) ix <> 1).
    { intros K. destruct (proj1 O K f Hf) as (K1 & _). rewrite C, risclose_refl in K1. discriminate K1. }
    destruct Z as [Z|Z]; [|contradiction]. split; [exact Z|]. split; [intros K; contradiction|]. intros K. specialize (K f Hf). lra.
  - assert (D : hstep g f <= upper g f - coord g (nth f (cell_faces g) []) f ix).
    { rewrite Pf. assert (1 <= IZR (Z.of_nat (nth f (gshape g) 0%nat) - 1 - nth f ix 0%Z)) by (apply IZR_le; lia). nra. }
    assert (K : get (nth f m (afull [] 0)) ix = 1).
    { apply O. intros a Ha. split; [|apply LO; exact Ha]. destruct (Nat.eq_dec f a) as [<-|Hne]; [|apply UP; assumption]. apply not_close. pose proof (Hr f _ Hf (or_intror eq_refl)). rewrite Rabs_minus_sym. pose proof (Rle_abs (upper g f - coord g (nth f (cell_faces g) []) f ix)). lra. }
    split; [exact K|]. split; [|intros _; exact K]. intros _ a Ha. destruct (Hb' a Ha) as (Hpa & _). destruct (@face_pos g f ix a Hb Hf Ha Hi) as (P1 & P2 & _). split; [lra|]. destruct (Nat.eq_dec f a) as [<-|Hne]; [lra | specialize (P2 Hne); lra].
Qed.
(* @prop C90 On every grid the faces that a mask keeps lie strictly inside the domain. *)
Lemma interior_masks_sound_lem : forall g m f ix, box g -> domain_interior_masks g = Ok m -> (f < gndim g)%nat -> inb (gshape g) ix -> get (nth f m (afull [] 0)) ix <> 0 -> inside g (nth f (cell_faces g) []) ix.
Proof.
  intros g m f ix Hb Em Hf Hi H. pose proof Hb as (Hw & Hb'). destruct (masks_list Hw) as (m' & Em' & _ & Gm). assert (m' = m) by congruence. subst m'. destruct (Gm f Hf) as (_ & V). cbv zeta in V. destruct (V ix) as (Z & O). destruct Z as [Z|Z]; [contradiction|].
  intros a Ha. destruct (Hb' a Ha) as (Hp & _). destruct (@face_pos g f ix a Hb Hf Ha Hi) as (P1 & P2 & P3). split; [lra|]. destruct (Nat.eq_dec f a) as [<-|Hne]; [|specialize (P2 Hne); lra]. specialize (P3 eq_refl). pose proof (@inb_nth _ _ Hi f Hf) as Hif.
  destruct (Z.eq_dec (nth f ix 0%Z) (Z.of_nat (nth f (gshape g) 0%nat) - 1)) as [E|E].
  - rewrite E, Z.sub_diag in P3. assert (C : coord g (nth f (cell_faces g) []) f ix = upper g f) by lra. destruct (proj1 O Z f Hf) as (K & _). rewrite C, risclose_refl in K. discriminate K.
  - assert (1 <= IZR (Z.of_nat (nth f (gshape g) 0%nat) - 1 - nth f ix 0%Z)) by (apply IZR_le; lia). nra.
Qed.
Definition far : grid := mkgrid [2%nat] [1] [(1000000, 1000002)].
Lemma far_box : box far.
Proof.
  split; [split; [reflexivity|]; split; [reflexivity|]; split; [repeat constructor|]; repeat constructor; lra|]. intros a Ha. destruct a as [|a]; [|cbn in Ha; lia]. unfold hstep, upper, lower. cbn. lra.
Qed.
(* @prop C90 Without that condition a face inside the domain can be masked: far from the origin the relative tolerance exceeds the width of the cells. *)
Lemma interior_masks_complete_refuted_lem : ~ (forall g m f ix, box g -> domain_interior_masks g = Ok m -> (f < gndim g)%nat -> inb (gshape g) ix -> inside g (nth f (cell_faces g) []) ix -> get (nth f m (afull [] 0)) ix <> 0).
Proof.
  intros H. pose proof far_box as (Hw & _). destruct (masks_list Hw) as (m & Em & _ & Gm). destruct (Gm 0%nat ltac:(cbn; lia)) as (_ & V). cbv zeta in V. destruct (V [0%Z]) as (Z & O).
  assert (C : coord far (nth 0 (cell_faces far) []) 0 [0%Z] = 1000001) by (unfold coord; rewrite face_half by (cbn; lia); unfold hstep; cbn; lra).
  apply (H far m 0%nat [0%Z] far_box Em); [cbn; lia | cbn; lia | |].
  - intros a Ha. destruct a as [|a]; [|cbn in Ha; lia]. rewrite C. unfold lower, upper. cbn. lra.
  - destruct Z as [Z|Z]; [exact Z|]. exfalso. destruct (proj1 O Z 0%nat ltac:(cbn; lia)) as (K & _). rewrite C in K. unfold risclose, upper in K. cbn [far gdomain nth snd] in K. destruct (Rle_dec _ _) as [L|L]; [discriminate K|]. apply L. rewrite Rabs_left by lra. rewrite Rabs_right by lra. lra.
Qed.

(** ** The grid of interior points *)
Definition cut (u : gvar) (a : nat) : bool :=
  negb (bctype_eqb (snd (nth a (btypes (gbc u)) (BCOther, BCOther))) Periodic) && (isclose (nth a (goff (garray u)) 0%Q) 1 || isclose (nth a (goff (garray u)) 0%Q) 0).
Definition cut_dom (u : gvar) (a : nat) (b : R * R) : R * R :=
  if isclose (nth a (goff (garray u)) 0%Q) 1 then (fst b, snd b - nth a (gstep (ggrid (garray u))) 0) else (fst b + nth a (gstep (ggrid (garray u))) 0, snd b).
Definition cut_step (u : gvar) (acc : list nat * list (R * R)) (axis : nat) : list nat * list (R * R) :=
  if cut u axis then (upd axis (nth axis (fst acc) 0 - 1)%nat (fst acc), upd axis (cut_dom u axis (nth axis (snd acc) (0, 0))) (snd acc)) else acc.
Lemma interior_grid_eq u : interior_grid u =
  let sd := fold_left (cut_step u) (seq 0 (gndim (ggrid (garray u)))) (gshape (ggrid (garray u)), gdomain (ggrid (garray u))) in
  grid_init (fst sd) StepNone (DomSeq (map (fun b => [fst b; snd b]) (snd sd))).
Proof.
  unfold interior_grid. cbv zeta. match goal with |- context [fold_left ?f (seq _ _) _] => set (h := f) end. assert (E : forall l acc, fold_left h l acc = fold_left (cut_step u) l acc).
  { induction l as [|a l IH]; intros (sh, dm); [reflexivity|]. cbn [fold_left]. rewrite IH. f_equal. unfold h, cut_step, cut, cut_dom. cbn [fst snd]. destruct (bctype_eqb _ Periodic); [reflexivity|]. cbn [negb andb]. destruct (nth a dm (0, 0)) as (lo, hi). cbn [fst snd]. destruct (isclose _ 1); [reflexivity|]. cbn [orb]. destruct (isclose _ 0); reflexivity. }
  rewrite E. destruct (fold_left (cut_step u) _ _) as (sh, dm). reflexivity.
Qed.
Lemma cut_fold u sh dm : length sh = length dm -> forall k, (k <= length sh)%nat -> let r := fold_left (cut_step u) (seq 0 k) (sh, dm) in
  length (fst r) = length sh /\ length (snd r) = length sh /\ forall a, nth a (fst r) 0%nat = (if (a <? k)%nat && cut u a then nth a sh 0 - 1 else nth a sh 0)%nat /\ nth a (snd r) (0, 0) = (if (a <? k)%nat && cut u a then cut_dom u a (nth a dm (0, 0)) else nth a dm (0, 0)).
Proof.
  intros HL. induction k as [|k IH]; intros Hk; cbv zeta; [cbn [seq fold_left fst snd Nat.ltb Nat.leb andb]; auto|]. specialize (IH ltac:(lia)). cbv zeta in IH. rewrite seq_S, fold_left_app. cbn [fold_left Nat.add]. set (r := fold_left (cut_step u) (seq 0 k) (sh, dm)) in *. destruct IH as (L1 & L2 & IH).
  unfold cut_step at 1 2 3 4. destruct (IH k) as (Ik1 & Ik2). rewrite Nat.ltb_irrefl in Ik1, Ik2. cbn [andb] in Ik1, Ik2. destruct (cut u k) eqn:C; cbn [fst snd].
  - rewrite !upd_length. split; [exact L1|]. split; [exact L2|]. intros a. destruct (Nat.eq_dec a k) as [->|Hne].
    + rewrite !nth_upd_same by lia. rewrite Ik1, Ik2, C. replace (k <? S k)%nat with true by (symmetry; apply Nat.ltb_lt; lia). split; reflexivity.
    + rewrite !nth_upd_other by lia. destruct (IH a) as (I1 & I2). rewrite I1, I2. replace (a <? S k)%nat with (a <? k)%nat by (destruct (Nat.ltb_spec a k), (Nat.ltb_spec a (S k)); try reflexivity; lia). split; reflexivity.
  - split; [exact L1|]. split; [exact L2|]. intros a. destruct (IH a) as (I1 & I2). rewrite I1, I2. destruct (Nat.eq_dec a k) as [->|Hne]; [rewrite Nat.ltb_irrefl, C, !Bool.andb_false_r; split; reflexivity|]. replace (a <? S k)%nat with (a <? k)%nat by (destruct (Nat.ltb_spec a k), (Nat.ltb_spec a (S k)); try reflexivity; lia). split; reflexivity.
Qed.
Lemma isclose_wd p q c : (p == q)%Q -> isclose p c = isclose q c.
Proof. intros E. unfold isclose. apply Qleb_comp; [apply Qabs_wd; rewrite E; reflexivity | reflexivity]. Qed.
Lemma isclose_cases q : (q == 0 \/ q == 1 # 2 \/ q == 1)%Q -> (isclose q 0 = Qeq_bool q 0 /\ isclose q 1 = Qeq_bool q 1).
Proof. intros [E|[E|E]]; rewrite !(@isclose_wd q _ _ E), (Qeqb_comp _ _ E 0%Q 0%Q (Qeq_refl _)), (Qeqb_comp _ _ E 1%Q 1%Q (Qeq_refl _)); split; reflexivity. Qed.
Lemma bounds_pairs dm : mapM pair_of_bounds (map (fun b : R * R => [fst b; snd b]) dm) = Ok dm.
Proof. induction dm as [|(lo, hi) dm IH]; [reflexivity|]. cbn [map mapM fst snd pair_of_bounds bind]. rewrite IH. reflexivity. Qed.
Lemma steps_ok : forall dm sh, length sh = length dm -> allpos sh -> exists st, steps_of dm sh = Ok st /\ length st = length sh /\ forall a, (a < length sh)%nat -> nth a st 0 = (snd (nth a dm (0, 0)) - fst (nth a dm (0, 0))) / INR (nth a sh 0%nat).
Proof.
  induction dm as [|(lo, hi) dm IH]; intros [|n sh] HL Hp; cbn in HL; try lia; [exists []; split; [reflexivity|]; split; [reflexivity|]; intros a Ha; cbn in Ha; lia|]. inversion Hp as [|? ? P1 P2]; subst. destruct (IH sh ltac:(lia) P2) as (st & E & L & G). unfold steps_of in *. cbn [combine mapM]. replace (n =? 0)%nat with false by (symmetry; apply Nat.eqb_neq; lia). cbn [bind]. rewrite E. cbn [bind]. eexists. split; [reflexivity|]. split; [cbn; lia|]. intros [|a] Ha; [reflexivity|]. cbn in Ha. cbn [nth]. apply G. lia.
Qed.
Lemma steps_err : forall dm sh, length sh = length dm -> In 0%nat sh -> steps_of dm sh = Err EZeroDiv.
Proof.
  induction dm as [|(lo, hi) dm IH]; intros [|n sh] HL Hp; cbn in HL; try lia; [destruct Hp|]. unfold steps_of in *. cbn [combine mapM]. destruct (Nat.eqb_spec n 0) as [->|Hn]; [reflexivity|]. cbn [bind]. destruct Hp as [Hp|Hp]; [lia|]. rewrite IH by (auto; lia). reflexivity.
Qed.
Lemma walled_dec u a : negb (bctype_eqb (snd (nth a (btypes (gbc u)) (BCOther, BCOther))) Periodic) = true <-> walled u a.
Proof. unfold walled. destruct (snd _); cbn; split; intros H; try reflexivity; try discriminate; try discriminate H. destruct H. reflexivity. Qed.
Lemma cut_iff u a : (nth a (goff (garray u)) 0 == 0 \/ nth a (goff (garray u)) 0 == 1 # 2 \/ nth a (goff (garray u)) 0 == 1)%Q ->
  (cut u a = true <-> walled u a /\ (nth a (goff (garray u)) 0 == 0 \/ nth a (goff (garray u)) 0 == 1)%Q).
Proof.
  intros H. unfold cut. destruct (isclose_cases H) as (-> & ->). rewrite andb_true_iff, walled_dec, orb_true_iff, !Qeq_bool_iff. tauto.
Qed.
Lemma cut_data u : aligned u -> let g := ggrid (garray u) in exists sh dm, interior_grid u = (let* st := steps_of dm sh in Ok (mkgrid sh st dm)) /\ length sh = gndim g /\ length dm = gndim g /\
  forall a, (a < gndim g)%nat -> (nth a sh 0 = if cut u a then nth a (gshape g) 0 - 1 else nth a (gshape g) 0)%nat /\ nth a dm (0, 0) = (if cut u a then cut_dom u a (nth a (gdomain g) (0, 0)) else nth a (gdomain g) (0, 0)).
Proof.
  intros ((Hw & Hb) & Ha) g. rewrite interior_grid_eq. cbv zeta. fold g. fold g in Hw, Hb, Ha. pose proof Hw as (_ & HD & _). pose proof (@cut_fold u (gshape g) (gdomain g) ltac:(unfold gndim in HD; lia) (gndim g) (le_n _)) as K. cbv zeta in K.
  set (r := fold_left _ _ _) in *. destruct K as (L1 & L2 & K). exists (fst r), (snd r). split; [|split; [exact L1|split; [exact L2|]]].
  - rewrite grid_init_unfold. unfold grid_domain_of. rewrite map_length. replace (length (snd r) =? length (fst r))%nat with true by (symmetry; apply Nat.eqb_eq; lia). rewrite bounds_pairs. reflexivity.
  - intros a Hl. destruct (K a) as (K1 & K2). apply Nat.ltb_lt in Hl. rewrite Hl in K1, K2. auto.
Qed.

(* @prop C90 The interior grid of a variable at nodes, centres or faces has the same cells as its grid, and along each axis that is not periodic its points at the offset of the variable are exactly those of the variable strictly inside the domain; periodic axes are unchanged. *)
Lemma interior_grid_points_lem : forall u, aligned u ->
  (forall a, (a < gndim (ggrid (garray u)))%nat -> walled u a -> (nth a (goff (garray u)) 0 == 0 \/ nth a (goff (garray u)) 0 == 1)%Q -> (2 <= nth a (gshape (ggrid (garray u))) 0)%nat) ->
  exists g', interior_grid u = Ok g' /\ box g' /\ gndim g' = gndim (ggrid (garray u)) /\
    forall a, (a < gndim g')%nat -> hstep g' a = hstep (ggrid (garray u)) a /\
      (walled u a -> forall x, axis_point g' (goff (garray u)) a x <-> axis_point (ggrid (garray u)) (goff (garray u)) a x /\ lower (ggrid (garray u)) a < x < upper (ggrid (garray u)) a) /\
      (~ walled u a -> nth a (gshape g') 0%nat = nth a (gshape (ggrid (garray u))) 0%nat /\ nth a (gdomain g') (0, 0) = nth a (gdomain (ggrid (garray u))) (0, 0)).
Proof.
  intros u Hal H2. destruct (cut_data Hal) as (sh & dm & E & L1 & L2 & K). set (g := ggrid (garray u)) in *. set (o := goff (garray u)) in *. pose proof Hal as ((Hw & Hb) & Ho). fold g in Hw, Hb, Ho. fold o in Ho. cbv zeta in Ho.
  assert (HC : forall a, (a < gndim g)%nat -> cut u a = true <-> walled u a /\ (nth a o 0 == 0 \/ nth a o 0 == 1)%Q) by (intros a Ha; apply cut_iff; apply (Ho a Ha)).
  assert (Hp : allpos sh).
  { apply Forall_nth. intros a d Ha. rewrite (nth_indep _ d 0%nat) by exact Ha. rewrite L1 in Ha. destruct (K a Ha) as (K1 & _). rewrite K1. destruct Hw as (_ & _ & P & _). pose proof (@allpos_nth _ a P Ha). specialize (HC a Ha). destruct (cut u a) eqn:C; [|lia]. destruct (proj1 HC eq_refl) as (C1 & C2). pose proof (H2 a Ha C1 C2). fold g in H0. lia. }
  destruct (@steps_ok dm sh ltac:(lia) Hp) as (st & Es & Ls & Gs). rewrite Es in E. cbn [bind] in E. exists (mkgrid sh st dm). split; [exact E|].
  assert (HG : forall a, (a < gndim g)%nat -> (0 < INR (nth a sh 0%nat)) /\ (snd (nth a dm (0, 0)) - fst (nth a dm (0, 0)) = INR (nth a sh 0%nat) * hstep g a)).
  { intros a Ha. assert (P : (0 < nth a sh 0)%nat) by (apply allpos_nth; [exact Hp|lia]). split; [apply lt_0_INR; exact P|]. destruct (K a Ha) as (K1 & K2). destruct (Hb a Ha) as (B1 & B2). unfold upper, lower in B2. rewrite K2, K1 in *. destruct (cut u a); [|exact B2]. rewrite minus_INR by lia. unfold cut_dom. fold g. change (nth a (gstep g) 0) with (hstep g a). destruct (isclose _ 1); cbn [fst snd]; change (INR 1) with 1; lra. }
  assert (HS : forall a, (a < gndim g)%nat -> nth a st 0 = hstep g a).
  { intros a Ha. rewrite Gs by lia. destruct (HG a Ha) as (P & Q). rewrite Q. field. lra. }
  split; [|split; [exact L1|]].
  - split; [split; [exact Ls|]; split; [unfold gndim; cbn; lia|]; split; [exact Hp|]|].
    + apply Forall_nth. intros a d Ha. cbn [gstep] in *. rewrite (nth_indep _ d 0) by exact Ha. rewrite HS by lia. destruct (Hb a ltac:(lia)). lra.
    + intros a Ha. unfold gndim in Ha. cbn [gshape] in Ha. assert (Ha' : (a < gndim g)%nat) by lia. unfold hstep, upper, lower. cbn [gstep gdomain gshape]. rewrite (HS a Ha'). destruct (Hb a Ha') as (B1 & _). split; [exact B1|]. apply HG. exact Ha'.
  - intros a Ha. unfold gndim in Ha. cbn [gshape] in Ha. assert (Ha' : (a < gndim g)%nat) by lia. unfold hstep at 1. cbn [gstep]. split; [apply HS; exact Ha'|]. destruct (K a Ha') as (K1 & K2). specialize (HC a Ha'). destruct (Hb a Ha') as (B1 & B2). split.
    + intros W x. unfold axis_point. unfold hstep at 1. unfold lower at 1. cbn [gshape gstep gdomain]. rewrite (HS a Ha'), K1, K2. clear K1 K2.
      assert (P : (0 < nth a (gshape g) 0)%nat) by (destruct Hw as (_ & _ & P & _); apply allpos_nth; [exact P|exact Ha']). rewrite INR_IZR_INZ in B2. set (n := Z.of_nat (nth a (gshape g) 0%nat)) in *. change (fst (nth a (gdomain g) (0, 0))) with (lower g a).
      assert (I : forall i j : Z, (i < j)%Z -> IZR i + 1 <= IZR j) by (intros i j Hij; rewrite <- plus_IZR; apply IZR_le; lia).
      destruct (Ho a Ha') as [Q|[Q|Q]].
      * assert (C : cut u a = true) by (apply HC; auto). rewrite C. unfold cut_dom. fold o. rewrite (@isclose_wd _ _ 1 Q). replace (isclose 0 1) with false by reflexivity. cbn [fst]. fold g. fold (hstep g a) (lower g a). rewrite (Qeq_eqR _ _ Q). replace (Q2R 0) with 0 by (unfold Q2R; cbn; lra). fold g. unfold hstep. fold (hstep g a).
        replace (Z.of_nat (nth a (gshape g) 0%nat - 1)) with (n - 1)%Z by (unfold n; lia). split.
        -- intros (i & Hi & ->). split; [exists (i + 1)%Z; split; [lia|]; rewrite plus_IZR; ring|]. assert (0 <= IZR i) by (apply IZR_le; lia). pose proof (I (i + 1)%Z n ltac:(lia)) as J. rewrite plus_IZR in J. split; nra.
        -- intros ((i & Hi & ->) & X1 & X2). exists (i - 1)%Z. destruct (Z.eq_dec i 0) as [->|Hi0]; [lra|]. split; [lia|]. rewrite minus_IZR. ring.
      * assert (C : cut u a = false). { apply Bool.not_true_iff_false. intros C. apply HC in C. destruct C as (_ & [C|C]); rewrite Q in C; discriminate C. } rewrite C. rewrite (Qeq_eqR _ _ Q). replace (Q2R (1 # 2)) with (1 / 2) by (unfold Q2R; cbn; lra). fold n. change (fst (nth a (gdomain g) (0, 0))) with (lower g a). split.
        -- intros (i & Hi & ->). split; [exists i; split; [exact Hi|reflexivity]|]. assert (0 <= IZR i) by (apply IZR_le; lia). pose proof (I i n ltac:(lia)) as J. split; nra.
        -- intros ((i & Hi & ->) & _). exists i. split; [exact Hi|reflexivity].
      * assert (C : cut u a = true) by (apply HC; auto). rewrite C. unfold cut_dom. fold o. rewrite (@isclose_wd _ _ 1 Q). replace (isclose 1 1) with true by reflexivity. cbn [fst]. rewrite (Qeq_eqR _ _ Q). replace (Q2R 1) with 1 by (unfold Q2R; cbn; lra). change (fst (nth a (gdomain g) (0, 0))) with (lower g a).
        replace (Z.of_nat (nth a (gshape g) 0%nat - 1)) with (n - 1)%Z by (unfold n; lia). split.
        -- intros (i & Hi & ->). split; [exists i; split; [lia|reflexivity]|]. assert (0 <= IZR i) by (apply IZR_le; lia). pose proof (I (i + 1)%Z n ltac:(lia)) as J. rewrite plus_IZR in J. split; nra.
        -- intros ((i & Hi & ->) & X1 & X2). exists i. split; [|reflexivity]. destruct (Z.eq_dec i (n - 1)) as [->|Hi0]; [|lia]. rewrite minus_IZR in X2. nra.
    + intros W. cbn [gshape gdomain]. assert (C : cut u a = false) by (apply Bool.not_true_iff_false; intros C; apply HC in C; tauto). rewrite K1, K2, C. split; reflexivity.
Qed.
(* @prop C90 A variable on nodes or faces normal to an axis with a single cell that is not periodic has no interior grid: the constructor divides by zero. *)
Lemma interior_grid_empty_lem : forall u a, aligned u -> (a < gndim (ggrid (garray u)))%nat -> walled u a -> (nth a (goff (garray u)) 0 == 0 \/ nth a (goff (garray u)) 0 == 1)%Q -> nth a (gshape (ggrid (garray u))) 0%nat = 1%nat -> interior_grid u = Err EZeroDiv.
Proof.
  intros u a Hal Ha W Q E1. destruct (cut_data Hal) as (sh & dm & E & L1 & L2 & K). destruct (K a Ha) as (K1 & _). rewrite (proj2 (cut_iff u a (proj2 Hal a Ha)) (conj W Q)), E1 in K1. rewrite E, steps_err; [reflexivity|lia|]. cbn in K1. rewrite <- K1. apply nth_In. lia.
Qed.

(** ** Examples *)
Definition strip (bt : bctype) (n : nat) : gvar := mkgv (mkga (afull [n] 0) [1%Q] (mkgrid [n] [1] [(0, INR n)])) (mkbc [(bt, bt)] [(Some 0, Some 0)] true).
Lemma strip_aligned bt n : (0 < n)%nat -> aligned (strip bt n).
Proof.
  intros Hn. split; [split; [split; [reflexivity|]; split; [reflexivity|]; split; [constructor; [exact Hn|constructor]|]; repeat constructor; lra|]|]; intros a Ha; (destruct a as [|a]; [|cbn in Ha; lia]).
  - unfold hstep, upper, lower. cbn. lra.
  - right. right. reflexivity.
Qed.
(* @ex *)
Lemma interior_masks_ex_lem : let g := mkgrid [3%nat] [1] [(0, 3)] in box g /\ resolved g.
Proof.
  cbv zeta. split; [split; [split; [reflexivity|]; split; [reflexivity|]; split; [repeat constructor|]; repeat constructor; lra|]|].
  - intros a Ha. destruct a as [|a]; [|cbn in Ha; lia]. unfold hstep, upper, lower. cbn. lra.
  - intros a b Ha Hb. destruct a as [|a]; [|cbn in Ha; lia]. unfold hstep, upper, lower in *. cbn in *. destruct Hb as [-> | ->]; [rewrite Rabs_R0 | rewrite Rabs_right by lra]; lra.
Qed.
(* @ex *)
Lemma interior_masks_sound_ex_lem : let g := mkgrid [3%nat] [1] [(0, 3)] in exists m, domain_interior_masks g = Ok m /\ get (nth 0 m (afull [] 0)) [0%Z] <> 0 /\ inb (gshape g) [0%Z].
Proof.
  cbv zeta. destruct interior_masks_ex_lem as (B & R). destruct (@interior_masks_lem _ B R) as (m & E & _ & G). exists m. split; [exact E|]. destruct (G 0%nat ltac:(cbn; lia)) as (_ & V). assert (I : inb [3%nat] [0%Z]) by (cbn; lia). destruct (V [0%Z] I) as (V1 & _). split; [|exact I]. rewrite V1. cbn. lra.
Qed.
(* @ex *)
Lemma interior_grid_points_ex_lem : aligned (strip Dirichlet 3) /\ walled (strip Dirichlet 3) 0 /\ exists g', interior_grid (strip Dirichlet 3) = Ok g' /\ gshape g' = [2%nat].
Proof. split; [apply strip_aligned; lia|]. split; [discriminate|]. eexists. split; reflexivity. Qed.
(* @ex *)
Lemma interior_grid_empty_ex_lem : aligned (strip Dirichlet 1) /\ walled (strip Dirichlet 1) 0.
Proof. split; [apply strip_aligned; lia|discriminate]. Qed.
