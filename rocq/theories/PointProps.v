(** * C75: interpolation at a point *)
From Coq Require Import Qreals.
From Verif Require Import Prelude NdArr Grids_model Spec Boundaries_model FD_model PRep FDProofs FastDiagProofs Interp_model InterpProofs InterpProps SemiLagProps Point_model SpecPoint.
Set Implicit Arguments.
Local Open Scope R_scope.

Definition node_val (mode : pmode) (cval : R) (a : arr R) (jx : list Z) : R :=
  if forallb (fun p => is_valid mode (fst p) (snd p)) (combine jx (shp a))
  then get a (map (fun p => fix_index mode (fst p) (snd p)) (combine jx (shp a))) else cval.

(** ** the sum over the corner nodes *)
Definition wnode (mode : pmode) (n : nat) (iw : Z * R) : (Z * bool) * R := ((fix_index mode (fst iw) n, is_valid mode (fst iw) n), snd iw).
Definition wsum (C : list (Z * bool) -> R) (l : list (list ((Z * bool) * R))) : R :=
  fold_right Rplus 0 (map (fun items => fold_right Rmult 1 (map snd items) * C (map fst items)) (cartesian l)).
Lemma fold_plus_app l1 l2 : fold_right Rplus 0 (l1 ++ l2) = fold_right Rplus 0 l1 + fold_right Rplus 0 l2.
Proof. induction l1; simpl; [ring|]. rewrite IHl1. ring. Qed.
Lemma fold_scal {A} w (f : A -> R) l : fold_right Rplus 0 (map (fun x => w * f x) l) = w * fold_right Rplus 0 (map f l).
Proof. induction l; simpl; [ring|]. rewrite IHl. ring. Qed.
Lemma wsum_nil C : wsum C [] = C [].
Proof. unfold wsum. simpl. ring. Qed.
Lemma wsum_cons C x l : wsum C (x :: l) = fold_right Rplus 0 (map (fun a => snd a * wsum (fun t => C (fst a :: t)) l) x).
Proof.
  unfold wsum at 1. cbn [cartesian]. induction x as [|a x IH]; [reflexivity|].
  cbn [flat_map map fold_right]. rewrite map_app, fold_plus_app, IH. f_equal.
  unfold wsum. rewrite <- fold_scal, map_map. f_equal. apply map_ext. intros t. cbn [map fold_right]. ring.
Qed.
Lemma wsum_ext C D l : (forall t, length t = length l -> C t = D t) -> wsum C l = wsum D l.
Proof.
  revert C D. induction l as [|x l IH]; intros C D H; [rewrite !wsum_nil; apply H; reflexivity|].
  rewrite !wsum_cons. f_equal. apply map_ext. intros a. f_equal. apply IH. intros t Ht. apply H. simpl. lia.
Qed.

Definition nodes_of (order : nat) (x : R) : list (Z * R) := match interp_nodes order x with Ok l => l | Err _ => [] end.
Lemma interp_nodes_ok order x : (order <= 1)%nat -> interp_nodes order x = Ok (nodes_of order x).
Proof. destruct order as [|[|o]]; intros H; [reflexivity | reflexivity | lia]. Qed.

Lemma map_coordinates_wsum (a : arr R) xs order mode cval : length xs = length (shp a) -> mode <> PMOther -> (order <= 1)%nat ->
  map_coordinates a xs order mode cval =
    Ok (wsum (fun t => if forallb snd t then get a (map fst t) else cval)
             (map (fun cs => map (wnode mode (snd cs)) (nodes_of order (fst cs))) (combine xs (shp a)))).
Proof.
  intros HL Hm Ho. unfold map_coordinates. rewrite HL, Nat.eqb_refl. cbn [negb].
  assert (E : mapM (fun cs => let* nodes := interp_nodes order (fst cs) in
                 Ok (map (fun iw => ((fix_index mode (fst iw) (snd cs), is_valid mode (fst iw) (snd cs)), snd iw)) nodes)) (combine xs (shp a))
            = Ok (map (fun cs => map (wnode mode (snd cs)) (nodes_of order (fst cs))) (combine xs (shp a)))).
  { generalize (combine xs (shp a)). intros l. induction l as [|cs l IH]; [reflexivity|].
    cbn [mapM map]. rewrite interp_nodes_ok by auto. cbn [bind]. rewrite IH. reflexivity. }
  destruct mode; try congruence; rewrite E; cbn [bind]; f_equal; unfold wsum; f_equal; apply map_ext; intros items;
    rewrite map_map; f_equal;
    replace (forallb (fun it => snd (fst it)) items) with (forallb snd (map fst items)) by (clear; induction items as [|u l IH]; simpl; [reflexivity | rewrite IH; reflexivity]); reflexivity.
Qed.

Lemma wsum_const order c0 mode l : (order <= 1)%nat -> wsum (fun _ => c0) (map (fun cs : R * nat => map (wnode mode (snd cs)) (nodes_of order (fst cs))) l) = c0.
Proof.
  intros Ho. induction l as [|cs l IH]; [apply wsum_nil|]. cbn [map]. rewrite wsum_cons.
  set (L := map (fun cs : R * nat => map (wnode mode (snd cs)) (nodes_of order (fst cs))) l) in *. clearbody L. rewrite IH.
  destruct order as [|[|o]]; [ | | lia]; simpl; ring.
Qed.
Lemma multilinear_const c0 xs : multilinear (fun _ => c0) xs = c0.
Proof. induction xs as [|y xs IH]; simpl; [reflexivity|]. rewrite IH. ring. Qed.
Lemma wsum_one mode cval s : forall xs (G : list Z -> R), length xs = length s ->
  wsum (fun t => if forallb snd t then G (map fst t) else cval) (map (fun cs => map (wnode mode (snd cs)) (nodes_of 1 (fst cs))) (combine xs s)) =
  multilinear (fun jx => if forallb (fun p => is_valid mode (fst p) (snd p)) (combine jx s) then G (map (fun p => fix_index mode (fst p) (snd p)) (combine jx s)) else cval) xs.
Proof.
  induction s as [|n s IH]; intros [|x xs] G HL; try discriminate; [apply wsum_nil|].
  assert (K : forall j, wsum (fun t => if forallb snd ((fix_index mode j n, is_valid mode j n) :: t) then G (map fst ((fix_index mode j n, is_valid mode j n) :: t)) else cval)
                 (map (fun cs => map (wnode mode (snd cs)) (nodes_of 1 (fst cs))) (combine xs s)) =
      multilinear (fun ix => if forallb (fun p => is_valid mode (fst p) (snd p)) (combine (j :: ix) (n :: s)) then G (map (fun p => fix_index mode (fst p) (snd p)) (combine (j :: ix) (n :: s))) else cval) xs).
  { intros j. cbn [forallb map combine fst snd]. destruct (is_valid mode j n) eqn:Ev.
    - cbn [andb]. rewrite <- (IH xs (fun l => G (fix_index mode j n :: l))) by (simpl in HL; lia). reflexivity.
    - cbn [andb]. rewrite wsum_const, multilinear_const by lia. reflexivity. }
  cbn [combine map]. rewrite wsum_cons.
  set (L := map (fun cs : R * nat => map (wnode mode (snd cs)) (nodes_of 1 (fst cs))) (combine xs s)) in *. clearbody L.
  change (map (wnode mode (snd (x, n))) (nodes_of 1 (fst (x, n)))) with [wnode mode n (Int_part x, 1 - (x - IZR (Int_part x))); wnode mode n ((Int_part x + 1)%Z, x - IZR (Int_part x))].
  cbn [map fold_right multilinear]. unfold wnode. cbn [fst snd]. rewrite !K. ring.
Qed.
Lemma wsum_zero mode cval s : forall xs (G : list Z -> R), length xs = length s ->
  wsum (fun t => if forallb snd t then G (map fst t) else cval) (map (fun cs => map (wnode mode (snd cs)) (nodes_of 0 (fst cs))) (combine xs s)) =
  (fun jx => if forallb (fun p => is_valid mode (fst p) (snd p)) (combine jx s) then G (map (fun p => fix_index mode (fst p) (snd p)) (combine jx s)) else cval) (map round_away xs).
Proof.
  induction s as [|n s IH]; intros [|x xs] G HL; try discriminate; [apply wsum_nil|].
  cbn [combine map]. rewrite wsum_cons.
  change (map (wnode mode (snd (x, n))) (nodes_of 0 (fst (x, n)))) with [wnode mode n (round_away x, 1)].
  set (j := round_away x). pose proof (IH xs (fun l => G (fix_index mode j n :: l)) ltac:(simpl in HL; lia)) as IH1.
  pose proof (@wsum_const 0 cval mode (combine xs s) ltac:(lia)) as IH2.
  set (L := map (fun cs : R * nat => map (wnode mode (snd cs)) (nodes_of 0 (fst cs))) (combine xs s)) in *. clearbody L j.
  unfold wnode. cbn [map fold_right fst snd forallb combine]. destruct (is_valid mode j n) eqn:Ev.
  - cbn [andb]. rewrite IH1. cbv beta. ring.
  - cbn [andb]. rewrite IH2. ring.
Qed.
Lemma map_coordinates_one (a : arr R) xs mode cval : length xs = length (shp a) -> mode <> PMOther ->
  map_coordinates a xs 1 mode cval = Ok (multilinear (node_val mode cval a) xs).
Proof. intros HL Hm. rewrite map_coordinates_wsum by auto. rewrite (wsum_one mode cval (shp a) xs (get a)) by auto. reflexivity. Qed.
Lemma map_coordinates_zero (a : arr R) xs mode cval : length xs = length (shp a) -> mode <> PMOther ->
  map_coordinates a xs 0 mode cval = Ok (node_val mode cval a (map round_away xs)).
Proof. intros HL Hm. rewrite map_coordinates_wsum by auto. rewrite (wsum_zero mode cval (shp a) xs (get a)) by auto. reflexivity. Qed.

(** ** the index of a point *)
Lemma point_interpolation_pos c p order mode cval : has_domain (ggrid c) -> on_grid c -> length p = gndim (ggrid c) ->
  point_interpolation p c order mode cval = map_coordinates (gdata c) (positions (ggrid c) (goff c) p) order mode cval.
Proof.
  intros (HL & Hd) (_ & Ho) Hp. unfold point_interpolation. rewrite Hp, Ho, HL, Nat.eqb_refl. cbn [negb orb].
  set (g := ggrid c) in *.
  replace (existsb (fun d => if Req_EM_T (snd d - fst d) 0 then true else false) (gdomain g)) with false.
  2:{ symmetry. destruct (existsb _ _) eqn:E; [|reflexivity]. exfalso. apply existsb_exists in E. destruct E as (d & Hin & Hz).
      apply (In_nth _ _ (0, 0)) in Hin. destruct Hin as (i & Hi & En). rewrite HL in Hi. destruct (Hd i Hi) as (_ & Hp'). unfold len in Hp'. rewrite En in Hp'.
      destruct (Req_EM_T (snd d - fst d) 0); [lra | discriminate]. }
  f_equal. unfold positions. apply map_ext_in. intros i Hi. apply in_seq in Hi. destruct (Hd i ltac:(lia)) as (Hn & Hl).
  unfold cell_width, low. unfold len in *. destruct (nth i (gdomain g) (0, 0)) as [lo hi]. cbn [fst snd] in *.
  assert (0 < INR (nth i (gshape g) 0%nat)) by (apply lt_0_INR; lia). field. lra.
Qed.
Lemma positions_length g o p : length (positions g o p) = gndim g.
Proof. unfold positions. rewrite map_length, seq_length. reflexivity. Qed.
Lemma cell_width_pos g i : has_domain g -> (i < gndim g)%nat -> 0 < cell_width g i.
Proof. intros (_ & H) Hi. destruct (H i Hi). unfold cell_width. apply Rdiv_lt_0_compat; [auto | apply lt_0_INR; auto]. Qed.
Lemma positions_cell g o o' ix : has_domain g -> positions g o (cell_point g o' ix) = map (fun i => IZR (nth i ix 0%Z) + (Q2R (nth i o' 0%Q) - Q2R (nth i o 0%Q))) (seq 0 (gndim g)).
Proof.
  intros H. unfold positions. apply map_ext_in. intros i Hi. apply in_seq in Hi. pose proof (cell_width_pos H (proj2 Hi)).
  unfold cell_point. rewrite nth_map_seq by lia. field. lra.
Qed.

(** ** data continued beyond the ends *)
Lemma period_mul (f : Z -> R) P : (forall k, f (k + P)%Z = f k) -> forall m k, f (k + P * m)%Z = f k.
Proof.
  intros H m k. destruct (Z.le_gt_cases 0 m).
  - revert m H0 k. apply (natlike_ind (fun m => forall k, f (k + P * m)%Z = f k)).
    + intros k. f_equal. lia.
    + intros m Hm IH k. replace (k + P * Z.succ m)%Z with (k + P * m + P)%Z by lia. rewrite H. apply IH.
  - assert (Hm : (0 <= - m)%Z) by lia. replace m with (- - m)%Z by lia. revert Hm. generalize (- m)%Z. clear m H0. intros m Hm. revert m Hm k.
    apply (natlike_ind (fun m => forall k, f (k + P * - m)%Z = f k)).
    + intros k. f_equal. lia.
    + intros m Hm IH k. rewrite <- (H (k + P * - Z.succ m)%Z). replace (k + P * - Z.succ m + P)%Z with (k + P * - m)%Z by lia. apply IH.
Qed.
Lemma mirror_fix_spec (k s : Z) : (0 < s)%Z -> exists q, (- s <= k - 2 * s * q < s)%Z /\ mirror_fix k (s + 1) = Z.abs (k - 2 * s * q).
Proof.
  intros Hs. exists ((k + s) / (2 * s))%Z. unfold mirror_fix. replace (s + 1 - 1)%Z with s by lia.
  pose proof (Z.div_mod (k + s) (2 * s) ltac:(lia)). pose proof (Z.mod_pos_bound (k + s) (2 * s) ltac:(lia)).
  split; [lia|]. f_equal. lia.
Qed.
Definition simple (mode : pmode) : Prop := mode <> PMOther /\ mode <> PMConstant.
Lemma fix_in mode n k : simple mode -> (0 < n)%nat -> (mode = PMMirror -> (2 <= n)%nat) -> (0 <= fix_index mode k n < Z.of_nat n)%Z.
Proof.
  intros (Hm1 & Hm2) Hn H2. destruct mode; try congruence; cbn [fix_index].
  - destruct (@mirror_fix_spec (2 * k + 1) (2 * Z.of_nat n) ltac:(lia)) as (q & B & ->).
    destruct (Z.abs_spec (2 * k + 1 - 2 * (2 * Z.of_nat n) * q)) as [(A & ->) | (A & ->)].
    + replace (2 * k + 1 - 2 * (2 * Z.of_nat n) * q - 1)%Z with ((k - 2 * Z.of_nat n * q) * 2)%Z by lia. rewrite Z.div_mul by lia. lia.
    + replace (- (2 * k + 1 - 2 * (2 * Z.of_nat n) * q) - 1)%Z with ((-1 - (k - 2 * Z.of_nat n * q)) * 2)%Z by lia. rewrite Z.div_mul by lia. lia.
  - lia.
  - specialize (H2 eq_refl). destruct (@mirror_fix_spec k (Z.of_nat n - 1) ltac:(lia)) as (q & B & E).
    replace (Z.of_nat n - 1 + 1)%Z with (Z.of_nat n) in E by lia. rewrite E. lia.
  - apply Z.mod_pos_bound. lia.
Qed.
Lemma fix_same mode n k (f : Z -> R) : simple mode -> (0 < n)%nat -> (mode = PMMirror -> (2 <= n)%nat) -> continues mode n f -> f (fix_index mode k n) = f k.
Proof.
  intros (Hm1 & Hm2) Hn H2. destruct mode; try congruence; cbn [fix_index continues]; intros Hf.
  - assert (HP : forall k, f (k + 2 * Z.of_nat n)%Z = f k).
    { intros j. destruct (Hf j) as (A & _). destruct (Hf (-1 - j)%Z) as (_ & B). rewrite <- A, <- B. f_equal. lia. }
    destruct (@mirror_fix_spec (2 * k + 1) (2 * Z.of_nat n) ltac:(lia)) as (q & B & ->).
    transitivity (f (k + 2 * Z.of_nat n * - q)%Z); [| apply (@period_mul f _ HP)].
    destruct (Z.abs_spec (2 * k + 1 - 2 * (2 * Z.of_nat n) * q)) as [(A & ->) | (A & ->)].
    + replace (2 * k + 1 - 2 * (2 * Z.of_nat n) * q - 1)%Z with ((k - 2 * Z.of_nat n * q) * 2)%Z by lia. rewrite Z.div_mul by lia. f_equal. lia.
    + replace (- (2 * k + 1 - 2 * (2 * Z.of_nat n) * q) - 1)%Z with ((-1 - (k - 2 * Z.of_nat n * q)) * 2)%Z by lia. rewrite Z.div_mul by lia.
      rewrite (proj1 (Hf (k - 2 * Z.of_nat n * q)%Z)). f_equal. lia.
  - destruct (Z_lt_le_dec k 0) as [A | A].
    + rewrite (proj1 (Hf k) A). f_equal. lia.
    + destruct (Z_lt_le_dec k (Z.of_nat n)) as [B | B].
      * f_equal. lia.
      * rewrite (proj2 (Hf k) B). f_equal. lia.
  - specialize (H2 eq_refl). assert (HP : forall k, f (k + 2 * (Z.of_nat n - 1))%Z = f k).
    { intros j. destruct (Hf j) as (A & _). destruct (Hf (- j)%Z) as (_ & B). rewrite <- A, <- B. f_equal. lia. }
    destruct (@mirror_fix_spec k (Z.of_nat n - 1) ltac:(lia)) as (q & B & E).
    replace (Z.of_nat n - 1 + 1)%Z with (Z.of_nat n) in E by lia. rewrite E.
    transitivity (f (k + 2 * (Z.of_nat n - 1) * - q)%Z); [| apply (@period_mul f _ HP)].
    destruct (Z.abs_spec (k - 2 * (Z.of_nat n - 1) * q)) as [(A & ->) | (A & ->)].
    + f_equal. lia.
    + rewrite (proj1 (Hf _)). f_equal. lia.
  - transitivity (f (k + Z.of_nat n * - (k / Z.of_nat n))%Z); [| apply (@period_mul f _ Hf)]. f_equal.
    pose proof (Z.div_mod k (Z.of_nat n) ltac:(lia)). lia.
Qed.
Lemma forallb_combine_true {A B} (l : list A) (m : list B) : forallb (fun p : A * B => true) (combine l m) = true.
Proof. induction (combine l m); auto. Qed.
Lemma inb_map_fix mode s jx : simple mode -> length jx = length s -> (forall i, (i < length s)%nat -> (0 < nth i s 0)%nat /\ (mode = PMMirror -> (2 <= nth i s 0)%nat)) ->
  inb s (map (fun p => fix_index mode (fst p) (snd p)) (combine jx s)).
Proof.
  intros Hm. revert jx. induction s as [|n s IH]; intros [|k jx] HL H; try discriminate; [exact I|].
  cbn [combine map inb fst snd]. split; [apply fix_in; auto; apply (H 0%nat); simpl; lia | apply IH; [simpl in HL; lia|]].
  intros i Hi. apply (H (S i)). simpl. lia.
Qed.
Lemma fix_all mode s (E : list Z -> R) : simple mode -> (forall i, (i < length s)%nat -> (0 < nth i s 0)%nat /\ (mode = PMMirror -> (2 <= nth i s 0)%nat)) ->
  (forall i ix, (i < length s)%nat -> length ix = length s -> continues mode (nth i s 0%nat) (fun k => E (upd i k ix))) ->
  forall s2 pre post s1, s = s1 ++ s2 -> length pre = length s1 -> length post = length s2 ->
  E (pre ++ map (fun p => fix_index mode (fst p) (snd p)) (combine post s2)) = E (pre ++ post).
Proof.
  intros Hm Hpos Hc. induction s2 as [|n s2 IH]; intros pre post s1 Es Hp Hq; destruct post as [|k post]; try discriminate; [reflexivity|].
  cbn [combine map fst snd].
  assert (Hlt : (length s1 < length s)%nat) by (rewrite Es, app_length; simpl; lia).
  assert (Hn : nth (length s1) s 0%nat = n) by (rewrite Es, app_nth2, Nat.sub_diag by lia; reflexivity).
  transitivity (E (pre ++ fix_index mode k n :: post)).
  - specialize (IH (pre ++ [fix_index mode k n]) post (s1 ++ [n])). rewrite <- !app_assoc in IH. cbn [app] in IH.
    apply IH; [exact Es | rewrite !app_length; simpl; lia | simpl in Hq; lia].
  - specialize (Hc (length s1) (pre ++ k :: post) Hlt). rewrite Hn in Hc.
    assert (HU : forall j, upd (length s1) j (pre ++ k :: post) = pre ++ j :: post).
    { intros j. rewrite <- Hp. clear. induction pre; simpl; [reflexivity|]. f_equal. auto. }
    assert (Hl : length (pre ++ k :: post) = length s) by (rewrite Es, !app_length; simpl in *; lia).
    specialize (Hc Hl).
    pose proof (@fix_same mode n k (fun j => E (upd (length s1) j (pre ++ k :: post))) Hm) as F. cbv beta in F. rewrite !HU in F. apply F; auto.
    + rewrite <- Hn. apply Hpos. auto.
    + intros Em. rewrite <- Hn. apply Hpos; auto.
Qed.
Lemma valid_simple mode (l : list (Z * nat)) : simple mode -> forallb (fun p => is_valid mode (fst p) (snd p)) l = true.
Proof. intros (A & B). apply forallb_forall. intros p _. destruct mode; (congruence || reflexivity). Qed.
Lemma valid_const s jx : length jx = length s ->
  (forallb (fun p => is_valid PMConstant (fst p) (snd p)) (combine jx s) = true <-> inb s jx).
Proof.
  revert jx. induction s as [|n s IH]; intros [|k jx] HL; try discriminate; [simpl; tauto|].
  cbn [combine forallb inb fst snd is_valid]. rewrite !Bool.andb_true_iff, Z.leb_le, Z.ltb_lt, IH by (simpl in HL; lia). tauto.
Qed.
Lemma fix_const s jx : length jx = length s -> map (fun p => fix_index PMConstant (fst p) (snd p)) (combine jx s) = jx.
Proof. revert jx. induction s as [|n s IH]; intros [|k jx] HL; try discriminate; [reflexivity|]. cbn [combine map fst snd fix_index]. f_equal. apply IH. simpl in HL. lia. Qed.
Lemma node_val_extends mode cval (a : arr R) E : mode_ok mode (shp a) -> (forall i, (i < length (shp a))%nat -> (0 < nth i (shp a) 0)%nat) ->
  extends mode cval (shp a) (get a) E -> forall jx, length jx = length (shp a) -> node_val mode cval a jx = E jx.
Proof.
  intros Hm Hpos (Hin & Hout) jx HL. unfold node_val.
  assert (Hcase : mode = PMConstant \/ simple mode) by (destruct mode; try contradiction; (left; reflexivity) || (right; split; discriminate)).
  destruct Hcase as [-> | Hs].
  - destruct (forallb _ _) eqn:Ev.
    + apply valid_const in Ev; auto. rewrite fix_const by auto. symmetry. auto.
    + symmetry. apply Hout; auto. intros Hi. apply valid_const in Hi; auto. congruence.
  - rewrite valid_simple by auto.
    assert (HP : forall i, (i < length (shp a))%nat -> (0 < nth i (shp a) 0)%nat /\ (mode = PMMirror -> (2 <= nth i (shp a) 0)%nat)).
    { intros i Hi. split; [auto|]. intros ->. apply Hm. auto. }
    rewrite <- Hin by (apply inb_map_fix; auto).
    assert (Hout' : forall i ix, (i < length (shp a))%nat -> length ix = length (shp a) -> continues mode (nth i (shp a) 0%nat) (fun k => E (upd i k ix))).
    { destruct Hs as (H1 & H2). destruct mode; congruence || exact Hout. }
    apply (@fix_all mode (shp a) E Hs HP Hout' (shp a) [] jx []); auto.
Qed.
Lemma mode_ok_other mode s : mode_ok mode s -> mode <> PMOther.
Proof. intros H ->. exact H. Qed.

(* @prop C75 Linear interpolation at a point (order 1) multilinearly interpolates the data continued beyond the array as the documentation of the mode pictures it (wrapped, replicated, reflected about the edge or the centre of the last cell, or constant), at the position of the point with respect to the nodes: for every continuation satisfying the picture, the value returned is its multilinear interpolant. *)
Lemma point_interpolation_linear_lem : forall c p mode cval E, has_domain (ggrid c) -> on_grid c -> length p = gndim (ggrid c) -> mode_ok mode (gshape (ggrid c)) ->
  extends mode cval (gshape (ggrid c)) (get (gdata c)) E ->
  point_interpolation p c 1 mode cval = Ok (multilinear E (positions (ggrid c) (goff c) p)).
Proof.
  intros c p mode cval E Hd Hc Hp Hm HE. rewrite point_interpolation_pos by auto. pose proof (@mode_ok_other _ _ Hm) as Hm'. destruct Hc as (Hs & _).
  rewrite map_coordinates_one; [| rewrite positions_length, Hs; reflexivity | exact Hm'].
  f_equal. apply multilinear_ext. intros ix Hix. rewrite positions_length in Hix. apply node_val_extends; rewrite ?Hs; auto.
  intros i Hi. apply (proj2 Hd). auto.
Qed.
Lemma small_multiple n q : (- n < n * q < n)%Z -> (0 < n)%Z -> q = 0%Z.
Proof. intros H Hn. destruct (Z.eq_dec q 0) as [|N]; [auto|]. exfalso. assert (q <= -1 \/ 1 <= q)%Z as [A | A] by lia; nia. Qed.
Lemma reflect_fix_ex n k : (0 < n)%nat -> exists q, fix_index PMReflect k n = (k - 2 * Z.of_nat n * q)%Z \/ fix_index PMReflect k n = (-1 - k + 2 * Z.of_nat n * q)%Z.
Proof.
  intros Hn. cbn [fix_index]. destruct (@mirror_fix_spec (2 * k + 1) (2 * Z.of_nat n) ltac:(lia)) as (q & B & ->). exists q.
  destruct (Z.abs_spec (2 * k + 1 - 2 * (2 * Z.of_nat n) * q)) as [(A & ->) | (A & ->)].
  - left. replace (2 * k + 1 - 2 * (2 * Z.of_nat n) * q - 1)%Z with ((k - 2 * Z.of_nat n * q) * 2)%Z by lia. rewrite Z.div_mul by lia. lia.
  - right. replace (- (2 * k + 1 - 2 * (2 * Z.of_nat n) * q) - 1)%Z with ((-1 - (k - 2 * Z.of_nat n * q)) * 2)%Z by lia. rewrite Z.div_mul by lia. lia.
Qed.
Lemma reflect_fix_char n k r : (0 < n)%nat -> (0 <= r < Z.of_nat n)%Z -> (exists q, r = (k - 2 * Z.of_nat n * q)%Z \/ r = (-1 - k + 2 * Z.of_nat n * q)%Z) -> fix_index PMReflect k n = r.
Proof.
  intros Hn Hr (q & Hq). pose proof (@fix_in PMReflect n k ltac:(split; discriminate) Hn ltac:(discriminate)) as B.
  destruct (@reflect_fix_ex n k Hn) as (q' & Hq'). set (x := fix_index PMReflect k n) in *. clearbody x.
  destruct Hq as [Hq | Hq], Hq' as [Hq' | Hq'].
  - assert (q - q' = 0)%Z by (apply (@small_multiple (2 * Z.of_nat n)); lia). replace q' with q in * by lia. lia.
  - assert (q - q' = 0)%Z by (apply (@small_multiple (2 * Z.of_nat n)); lia). replace q' with q in * by lia. lia.
  - assert (q - q' = 0)%Z by (apply (@small_multiple (2 * Z.of_nat n)); lia). replace q' with q in * by lia. lia.
  - assert (q - q' = 0)%Z by (apply (@small_multiple (2 * Z.of_nat n)); lia). replace q' with q in * by lia. lia.
Qed.
Lemma mirror_fix_ex n k : (2 <= n)%nat -> exists q, fix_index PMMirror k n = (k - 2 * (Z.of_nat n - 1) * q)%Z \/ fix_index PMMirror k n = (- k + 2 * (Z.of_nat n - 1) * q)%Z.
Proof.
  intros Hn. cbn [fix_index]. destruct (@mirror_fix_spec k (Z.of_nat n - 1) ltac:(lia)) as (q & B & E).
  replace (Z.of_nat n - 1 + 1)%Z with (Z.of_nat n) in E by lia. rewrite E. exists q. lia.
Qed.
Lemma mirror_fix_char n k r : (2 <= n)%nat -> (0 <= r < Z.of_nat n)%Z -> (exists q, r = (k - 2 * (Z.of_nat n - 1) * q)%Z \/ r = (- k + 2 * (Z.of_nat n - 1) * q)%Z) -> fix_index PMMirror k n = r.
Proof.
  intros Hn Hr (q & Hq). pose proof (@fix_in PMMirror n k ltac:(split; discriminate) ltac:(lia) ltac:(intros; lia)) as B.
  destruct (@mirror_fix_ex n k Hn) as (q' & Hq'). set (x := fix_index PMMirror k n) in *. clearbody x.
  set (m := (Z.of_nat n - 1)%Z) in *. assert (Hm : (0 < m)%Z) by lia. assert (Bx : (0 <= x <= m)%Z) by lia. assert (Br : (0 <= r <= m)%Z) by lia. clearbody m. clear B Hr Hn.
  destruct Hq as [Hq | Hq], Hq' as [Hq' | Hq'].
  - assert (q - q' = 0)%Z by (apply (@small_multiple (2 * m)); lia). replace q' with q in * by lia. lia.
  - assert (q' - q = 0 \/ q' - q <> 0)%Z as [A | A] by lia; [replace q' with q in * by lia; lia|].
    assert (x + r = 2 * m * (q' - q))%Z by lia. assert (1 <= q' - q)%Z by nia. assert (2 * m <= x + r)%Z by nia. lia.
  - assert (q' - q = 0 \/ q - q' <> 0)%Z as [A | A] by lia; [replace q' with q in * by lia; lia|].
    assert (x + r = 2 * m * (q - q'))%Z by lia. assert (1 <= q - q')%Z by nia. assert (2 * m <= x + r)%Z by nia. lia.
  - assert (q - q' = 0)%Z by (apply (@small_multiple (2 * m)); lia). replace q' with q in * by lia. lia.
Qed.
Lemma fix_continues mode n (h : Z -> R) : mode <> PMOther -> (0 < n)%nat -> (mode = PMMirror -> (2 <= n)%nat) -> continues mode n (fun k => h (fix_index mode k n)).
Proof.
  intros Hm Hn H2. destruct mode; try congruence; cbn [continues].
  - intros k. pose proof (@fix_in PMReflect n k ltac:(split; discriminate) Hn ltac:(discriminate)) as B. destruct (@reflect_fix_ex n k Hn) as (q & Hq).
    split; f_equal; apply reflect_fix_char; auto.
    + exists (- q)%Z. lia.
    + exists (1 - q)%Z. lia.
  - exact I.
  - intros k. cbn [fix_index]. split; intros; f_equal; lia.
  - specialize (H2 eq_refl). intros k. pose proof (@fix_in PMMirror n k ltac:(split; discriminate) Hn ltac:(auto)) as B. destruct (@mirror_fix_ex n k H2) as (q & Hq).
    split; f_equal; apply mirror_fix_char; auto.
    + exists (- q)%Z. lia.
    + exists (1 - q)%Z. lia.
  - intros k. cbn [fix_index]. f_equal. rewrite <- (Z.mul_1_l (Z.of_nat n)) at 1. apply Z_mod_plus_full.
Qed.
Lemma fix_inside mode n k : mode <> PMOther -> (mode = PMMirror -> (2 <= n)%nat) -> (0 <= k < Z.of_nat n)%Z -> fix_index mode k n = k.
Proof.
  intros Hm H2 Hk. destruct mode; try congruence.
  - apply reflect_fix_char; [lia | auto | exists 0%Z; lia].
  - reflexivity.
  - cbn [fix_index]. lia.
  - apply mirror_fix_char; [auto | auto | exists 0%Z; lia].
  - cbn [fix_index]. apply Z.mod_small. auto.
Qed.
Lemma fix_all_inside mode s ix : mode <> PMOther -> (forall i, (i < length s)%nat -> mode = PMMirror -> (2 <= nth i s 0)%nat) -> inb s ix ->
  map (fun p => fix_index mode (fst p) (snd p)) (combine ix s) = ix /\ forallb (fun p => is_valid mode (fst p) (snd p)) (combine ix s) = true.
Proof.
  intros Hm. revert ix. induction s as [|n s IH]; intros [|k ix] H2 HI; try contradiction; [split; reflexivity|].
  destruct HI as (Hk & HI). cbn [combine map forallb fst snd]. destruct (IH ix) as (A & B); [intros i Hi; apply (H2 (S i)); simpl; lia | auto|].
  rewrite A, B, fix_inside; auto; [| apply (H2 0%nat); simpl; lia]. split; [reflexivity|].
  destruct mode; try reflexivity. cbn [is_valid]. rewrite (proj2 (Z.leb_le _ _)), (proj2 (Z.ltb_lt _ _)) by lia. reflexivity.
Qed.
Lemma node_val_inside mode cval (a : arr R) ix : mode_ok mode (shp a) -> inb (shp a) ix -> node_val mode cval a ix = get a ix.
Proof.
  intros Hm Hi. unfold node_val. destruct (@fix_all_inside mode (shp a) ix) as (A & B); auto; [apply (@mode_ok_other _ _ Hm) | | rewrite A, B; reflexivity].
  intros i Hlt ->. apply Hm. auto.
Qed.
Lemma combine_upd {T} i (k : Z) jx (s : list T) d : (i < length s)%nat -> length jx = length s -> combine (upd i k jx) s = upd i (k, nth i s d) (combine jx s).
Proof. revert i jx. induction s as [|n s IH]; intros [|i] [|j jx] Hi HL; simpl in *; try lia; [reflexivity|]. f_equal. apply IH; lia. Qed.
Lemma map_upd {A B} (f : A -> B) i x l : map f (upd i x l) = upd i (f x) (map f l).
Proof. revert i. induction l as [|y l IH]; intros [|i]; simpl; try reflexivity. f_equal. apply IH. Qed.

(* @prop C75 Such a continuation exists for every mode, every array with at least one cell (two for 'mirror') along every axis. *)
Lemma point_continuation_exists_lem : forall mode cval s (D : list Z -> R), mode_ok mode s -> (forall i, (i < length s)%nat -> (0 < nth i s 0)%nat) ->
  exists E, extends mode cval s D E.
Proof.
  intros mode cval s D Hm Hpos. exists (node_val mode cval (mkarr s D)).
  assert (HG : forall ix, inb s ix -> get (mkarr s D) ix = D ix) by (intros; reflexivity).
  split; [intros ix Hi; rewrite node_val_inside by auto; reflexivity|].
  assert (Hcase : mode = PMConstant \/ simple mode) by (destruct mode; try contradiction; (left; reflexivity) || (right; split; discriminate)).
  destruct Hcase as [-> | Hs].
  - intros ix HL Hn. unfold node_val. cbn [shp]. destruct (forallb _ _) eqn:Ev; [|reflexivity]. apply valid_const in Ev; auto. contradiction.
  - assert (G : forall i ix, (i < length s)%nat -> length ix = length s -> continues mode (nth i s 0%nat) (fun k => node_val mode cval (mkarr s D) (upd i k ix))).
    { intros i ix Hi HL.
      pose proof (@fix_continues mode (nth i s 0%nat) (fun j => D (upd i j (map (fun p => fix_index mode (fst p) (snd p)) (combine ix s))))) as F. cbv beta in F.
      assert (EQ : forall k, D (upd i (fix_index mode k (nth i s 0%nat)) (map (fun p => fix_index mode (fst p) (snd p)) (combine ix s))) = node_val mode cval (mkarr s D) (upd i k ix)).
      { intros k. unfold node_val. cbn [shp]. rewrite valid_simple by auto. cbn [get]. f_equal.
        rewrite (@combine_upd nat i k ix s 0%nat), map_upd by auto. reflexivity. }
      assert (F' : continues mode (nth i s 0%nat) (fun k => D (upd i (fix_index mode k (nth i s 0%nat)) (map (fun p => fix_index mode (fst p) (snd p)) (combine ix s))))).
      { apply F; [apply Hs | auto | intros ->; apply Hm; auto]. }
      clear F. destruct mode; cbn [continues] in *; auto; intros k; rewrite <- ?EQ; apply F'. }
    destruct Hs as (H1 & H2). destruct mode; congruence || exact G.
Qed.
(* @ex *)
Lemma point_continuation_exists_ex_lem : mode_ok PMMirror [4%nat; 2%nat] /\ forall i, (i < 2)%nat -> (0 < nth i [4%nat; 2%nat] 0)%nat.
Proof. split; [intros i Hi | intros i Hi]; simpl in Hi; destruct i as [|[|i]]; simpl; lia. Qed.
Lemma ipg_dom : has_domain ipg.
Proof. split; [reflexivity|]. intros i Hi. cbn in Hi. destruct i as [|[|i]]; [| | lia]; unfold len; cbn; split; (lia || lra). Qed.
Lemma ipc_on : on_grid (garray ipc).
Proof. split; reflexivity. Qed.
(* @ex *)
Lemma point_interpolation_linear_ex_lem : has_domain (ggrid (garray ipc)) /\ on_grid (garray ipc) /\ length [7/2; -1] = gndim (ggrid (garray ipc)) /\
  exists E, extends PMMirror 0 (gshape (ggrid (garray ipc))) (get (gdata (garray ipc))) E.
Proof.
  split; [exact ipg_dom|]. split; [exact ipc_on|]. split; [reflexivity|]. apply point_continuation_exists_lem; apply point_continuation_exists_ex_lem.
Qed.

(** ** order 0 *)
Lemma Int_part_unique k x : IZR k <= x < IZR k + 1 -> Int_part x = k.
Proof.
  intros (A & B). destruct (base_Int_part x) as (C & D).
  assert (E1 : IZR (Int_part x) < IZR (k + 1)) by (rewrite plus_IZR; lra). assert (E2 : IZR k < IZR (Int_part x + 1)) by (rewrite plus_IZR; lra).
  apply lt_IZR in E1. apply lt_IZR in E2. lia.
Qed.
Lemma round_away_near x k : Rabs (x - IZR k) < 1 / 2 -> round_away x = k.
Proof.
  intros H. apply Rabs_def2 in H. unfold round_away. destruct (Rlt_dec x 0).
  - rewrite (@Int_part_unique (- k)); [lia|]. rewrite opp_IZR. lra.
  - apply Int_part_unique. lra.
Qed.
(* @prop C75 Nearest interpolation at a point (order 0) returns the value, in the data continued beyond the array as the documentation of the mode pictures it, of the node less than half a cell away along every axis. *)
Lemma point_interpolation_nearest_lem : forall c p mode cval E ix, has_domain (ggrid c) -> on_grid c -> length p = gndim (ggrid c) -> mode_ok mode (gshape (ggrid c)) ->
  extends mode cval (gshape (ggrid c)) (get (gdata c)) E ->
  length ix = gndim (ggrid c) -> (forall i, (i < gndim (ggrid c))%nat -> Rabs (nth i (positions (ggrid c) (goff c) p) 0 - IZR (nth i ix 0%Z)) < 1 / 2) ->
  point_interpolation p c 0 mode cval = Ok (E ix).
Proof.
  intros c p mode cval E ix Hd Hc Hp Hm HE Hix Hn. rewrite point_interpolation_pos by auto. pose proof (@mode_ok_other _ _ Hm) as Hm'. destruct Hc as (Hs & _).
  rewrite map_coordinates_zero; [| rewrite positions_length, Hs; reflexivity | exact Hm'].
  rewrite (@node_val_extends mode cval (gdata c) E); rewrite ?Hs; auto.
  - f_equal. f_equal. apply (@list_ext_nth _ 0%Z); rewrite map_length, positions_length; [auto|]. intros i Hi.
    rewrite (nth_indep _ 0%Z (round_away 0)) by (rewrite map_length, positions_length; auto). rewrite map_nth. apply round_away_near. auto.
  - intros i Hi. apply (proj2 Hd). auto.
  - rewrite map_length, positions_length. reflexivity.
Qed.
(* @ex *)
Lemma point_interpolation_nearest_ex_lem : has_domain (ggrid (garray ipc)) /\ on_grid (garray ipc) /\
  (forall i, (i < gndim (ggrid (garray ipc)))%nat -> Rabs (nth i (positions (ggrid (garray ipc)) (goff (garray ipc)) [9/4; -3]) 0 - IZR (nth i [2; -2]%Z 0%Z)) < 1 / 2).
Proof.
  split; [exact ipg_dom|]. split; [exact ipc_on|]. intros i Hi. cbn in Hi.
  destruct i as [|[|i]]; [| | lia]; cbn [nth positions map seq gndim gshape length ggrid garray ipc goff ipg]; unfold cell_width, low, len, Q2R; cbn; apply Rabs_def1; lra.
Qed.

(* @prop C75 At the point of one of its own cells, point interpolation of order 0 or 1 returns the value stored there, in every documented mode. *)
Lemma point_interpolation_at_node_lem : forall c ix order mode cval, has_domain (ggrid c) -> on_grid c -> mode_ok mode (gshape (ggrid c)) -> (order <= 1)%nat ->
  inb (gshape (ggrid c)) ix -> point_interpolation (cell_point (ggrid c) (goff c) ix) c order mode cval = Ok (get (gdata c) ix).
Proof.
  intros c ix order mode cval Hd Hc Hm Ho Hi. pose proof (@mode_ok_other _ _ Hm) as Hm'. pose proof (inb_length _ _ Hi) as Hl.
  rewrite point_interpolation_pos; auto; [| unfold cell_point; rewrite map_length, seq_length; reflexivity].
  assert (EP : positions (ggrid c) (goff c) (cell_point (ggrid c) (goff c) ix) = map IZR ix).
  { rewrite positions_cell by auto. apply (@list_ext_nth _ 0); rewrite !map_length, seq_length; [auto|]. intros i Hlt.
    rewrite nth_map_seq by auto. rewrite (map_nth IZR). ring. }
  rewrite EP. destruct Hc as (Hs & _). rewrite <- Hs in Hm, Hi, Hl.
  destruct order as [|[|o]]; [| | lia].
  - rewrite map_coordinates_zero by (rewrite ?map_length; auto). f_equal. rewrite map_map.
    replace (map (fun x => round_away (IZR x)) ix) with ix; [apply node_val_inside; auto|].
    rewrite <- (map_id ix) at 1. apply map_ext. intros k. symmetry. apply round_away_near. replace (IZR k - IZR k) with 0 by ring. rewrite Rabs_R0. lra.
  - rewrite map_coordinates_one by (rewrite ?map_length; auto). f_equal. rewrite multilinear_int. apply node_val_inside; auto.
Qed.
(* @ex *)
Lemma point_interpolation_at_node_ex_lem : has_domain (ggrid (garray ipc)) /\ on_grid (garray ipc) /\ mode_ok PMReflect (gshape (ggrid (garray ipc))) /\ inb (gshape (ggrid (garray ipc))) [3; 1]%Z /\
  cell_point (ggrid (garray ipc)) (goff (garray ipc)) [3; 1]%Z = [7/2; 3].
Proof.
  split; [exact ipg_dom|]. split; [exact ipc_on|]. split; [exact I|]. split; [cbn; lia|].
  unfold cell_point, cell_width, low, len, Q2R. cbn. f_equal; [lra|]. f_equal. lra.
Qed.

(** ** affine data *)
Lemma multilinear_affine s : forall xs (F : list Z -> R) a b, length xs = length s ->
  (forall i, (i < length s)%nat -> 0 <= nth i xs 0 <= INR (nth i s 0%nat) - 1) ->
  (forall ix, inb s ix -> F ix = a + nsum (length s) (fun i => b i * IZR (nth i ix 0%Z))) ->
  multilinear F xs = a + nsum (length s) (fun i => b i * nth i xs 0).
Proof.
  induction s as [|n s IH]; intros [|x xs] F a b HL Hx HF; try discriminate.
  - simpl. rewrite HF by exact I. reflexivity.
  - cbn [multilinear length]. rewrite nsum_first. cbn [nth].
    pose proof (Hx 0%nat ltac:(simpl; lia)) as Hx0. cbn [nth] in Hx0. destruct (base_Int_part x) as (A & B). set (k := Int_part x) in *.
    assert (Hn : INR n = IZR (Z.of_nat n)) by apply INR_IZR_INZ. rewrite Hn in Hx0.
    assert (K0 : (0 <= k)%Z). { assert (T : IZR (-1) < IZR k) by lra. apply lt_IZR in T. lia. }
    assert (K1 : (k < Z.of_nat n)%Z) by (apply lt_IZR; lra).
    assert (HX : forall i, (i < length s)%nat -> 0 <= nth i xs 0 <= INR (nth i s 0%nat) - 1) by (intros i Hi; apply (Hx (S i)); simpl; lia).
    assert (G : forall j, (0 <= j < Z.of_nat n)%Z -> multilinear (fun ix => F (j :: ix)) xs = (a + b 0%nat * IZR j) + nsum (length s) (fun i => b (S i) * nth i xs 0)).
    { intros j Hj. apply (IH xs (fun ix => F (j :: ix)) (a + b 0%nat * IZR j) (fun i => b (S i))); [simpl in HL; lia | exact HX|].
      intros ix Hix. rewrite HF by (split; auto). cbn [length]. rewrite nsum_first. cbn [nth]. ring. }
    rewrite G by lia. destruct (Z.eq_dec (k + 1) (Z.of_nat n)) as [E | E].
    + assert (EX : x = IZR k). { rewrite <- E, plus_IZR in Hx0. lra. } rewrite <- EX. ring.
    + rewrite G by lia. rewrite plus_IZR. ring.
Qed.
(* @prop C75 Linear interpolation at a point reproduces affine data exactly at every point between the first and the last node along every axis, in every documented mode. *)
Lemma point_interpolation_affine_lem : forall c p mode cval a b, has_domain (ggrid c) -> on_grid c -> length p = gndim (ggrid c) -> mode_ok mode (gshape (ggrid c)) ->
  (forall ix, inb (gshape (ggrid c)) ix -> get (gdata c) ix = affine (gndim (ggrid c)) a b (cell_point (ggrid c) (goff c) ix)) ->
  (forall i, (i < gndim (ggrid c))%nat -> 0 <= nth i (positions (ggrid c) (goff c) p) 0 <= INR (nth i (gshape (ggrid c)) 0%nat) - 1) ->
  point_interpolation p c 1 mode cval = Ok (affine (gndim (ggrid c)) a b p).
Proof.
  intros c p mode cval a b Hd Hc Hp Hm Hdat Hpos. pose proof (@mode_ok_other _ _ Hm) as Hm'.
  rewrite point_interpolation_pos by auto. destruct Hc as (Hs & Ho). set (g := ggrid c) in *. set (o := goff c) in *.
  rewrite map_coordinates_one; [| rewrite positions_length, Hs; reflexivity | exact Hm']. f_equal.
  rewrite (@multilinear_affine (gshape g) _ _ (a + nsum (gndim g) (fun i => b i * (low g i + Q2R (nth i o 0%Q) * cell_width g i))) (fun i => b i * cell_width g i)).
  - change (length (gshape g)) with (gndim g). unfold affine. rewrite Rplus_assoc, <- nsum_plus. f_equal. apply nsum_ext. intros i Hi.
    unfold positions. rewrite nth_map_seq by auto. pose proof (cell_width_pos Hd Hi). field. lra.
  - apply positions_length.
  - exact Hpos.
  - intros ix Hix. rewrite node_val_inside by (rewrite Hs; auto). rewrite Hdat by auto. unfold affine. change (length (gshape g)) with (gndim g).
    rewrite Rplus_assoc, <- nsum_plus. f_equal. apply nsum_ext. intros i Hi. unfold cell_point. rewrite nth_map_seq by auto. ring.
Qed.
Definition ptg : grid := mkgrid [4%nat] [1] [(0, 4)].
Definition pta : garr := mkga (mkarr [4%nat] (fun ix => 2 + 3 * (IZR (nth 0 ix 0%Z) + 1 / 2))) [(1 # 2)%Q] ptg.
Lemma ptg_dom : has_domain ptg.
Proof. split; [reflexivity|]. intros i Hi. cbn in Hi. destruct i as [|i]; [| lia]; unfold len; cbn; split; (lia || lra). Qed.
(* @ex *)
Lemma point_interpolation_affine_ex_lem : has_domain (ggrid pta) /\ on_grid pta /\ mode_ok PMConstant (gshape (ggrid pta)) /\
  (forall ix, inb (gshape (ggrid pta)) ix -> get (gdata pta) ix = affine (gndim (ggrid pta)) 2 (fun _ => 3) (cell_point (ggrid pta) (goff pta) ix)) /\
  (forall i, (i < gndim (ggrid pta))%nat -> 0 <= nth i (positions (ggrid pta) (goff pta) [7/2]) 0 <= INR (nth i (gshape (ggrid pta)) 0%nat) - 1).
Proof.
  split; [exact ptg_dom|]. split; [split; reflexivity|]. split; [exact I|]. split.
  - intros ix _. unfold affine, nsum, cell_point, cell_width, low, len, Q2R. cbn. lra.
  - intros i Hi. cbn in Hi. destruct i as [|i]; [|lia]. unfold positions, cell_width, low, len, Q2R. cbn. lra.
Qed.

(** ** bounds *)
Lemma node_val_bounds mode cval (a : arr R) m M jx : mode_ok mode (shp a) -> (forall i, (i < length (shp a))%nat -> (0 < nth i (shp a) 0)%nat) ->
  (mode = PMConstant -> m <= cval <= M) -> (forall ix, inb (shp a) ix -> m <= get a ix <= M) -> length jx = length (shp a) -> m <= node_val mode cval a jx <= M.
Proof.
  intros Hm Hpos Hcv Hb HL. unfold node_val.
  assert (Hcase : mode = PMConstant \/ simple mode) by (destruct mode; try contradiction; (left; reflexivity) || (right; split; discriminate)).
  destruct Hcase as [-> | Hs].
  - destruct (forallb _ _) eqn:Ev; [|auto]. apply valid_const in Ev; auto. rewrite fix_const by auto. auto.
  - rewrite valid_simple by auto. apply Hb. apply inb_map_fix; auto. intros i Hi. split; [auto|]. intros ->. apply Hm. auto.
Qed.
(* @prop C75 Interpolation at a point, at any place inside or outside the domain, of order 0 or 1 and in every documented mode, never leaves the range of the data (in mode 'constant', of the data and the fill value). *)
Lemma point_interpolation_bounded_lem : forall c p order mode cval m M v, has_domain (ggrid c) -> on_grid c -> length p = gndim (ggrid c) -> mode_ok mode (gshape (ggrid c)) ->
  (order <= 1)%nat -> (mode = PMConstant -> m <= cval <= M) -> (forall ix, inb (gshape (ggrid c)) ix -> m <= get (gdata c) ix <= M) ->
  point_interpolation p c order mode cval = Ok v -> m <= v <= M.
Proof.
  intros c p order mode cval m M v Hd Hc Hp Hm Ho Hcv Hb. pose proof (@mode_ok_other _ _ Hm) as Hm'.
  rewrite point_interpolation_pos by auto. destruct Hc as (Hs & _). rewrite <- Hs in Hm, Hb.
  assert (HN : forall jx, length jx = length (shp (gdata c)) -> m <= node_val mode cval (gdata c) jx <= M).
  { intros jx HL. apply node_val_bounds; auto. intros i Hi. rewrite Hs in *. apply (proj2 Hd). auto. }
  destruct order as [|[|o]]; [| | lia].
  - rewrite map_coordinates_zero; [| rewrite positions_length, Hs; reflexivity | auto]. intros E. injection E as <-. apply HN. rewrite map_length, positions_length, Hs. reflexivity.
  - rewrite map_coordinates_one; [| rewrite positions_length, Hs; reflexivity | auto]. intros E. injection E as <-. apply multilinear_bounds. intros ix Hix. apply HN.
    rewrite Hix, positions_length, Hs. reflexivity.
Qed.
(* @ex *)
Lemma point_interpolation_bounded_ex_lem : has_domain (ggrid (garray ipc)) /\ on_grid (garray ipc) /\ mode_ok PMNearest (gshape (ggrid (garray ipc))) /\
  (forall ix, inb (gshape (ggrid (garray ipc))) ix -> 0 <= get (gdata (garray ipc)) ix <= 31).
Proof.
  split; [exact ipg_dom|]. split; [exact ipc_on|]. split; [exact I|].
  intros [|i [|j [|? ?]]] H; cbn in H; try tauto. destruct H as (Hi & Hj & _). cbn [get gdata garray ipc nth]. split; apply IZR_le; lia.
Qed.

(** ** periodicity of mode 'wrap' *)
Lemma multilinear_shift F : forall xs js, length js = length xs ->
  multilinear F (map (fun p => IZR (fst p) + snd p) (combine js xs)) = multilinear (fun ix => F (map (fun p => (fst p + snd p)%Z) (combine js ix))) xs.
Proof.
  intros xs. revert F. induction xs as [|x xs IH]; intros F [|j js] HL; try discriminate; [reflexivity|].
  cbn [combine map fst snd multilinear]. rewrite Int_part_shift, plus_IZR. replace (IZR j + x - (IZR j + IZR (Int_part x))) with (x - IZR (Int_part x)) by ring.
  rewrite !IH by (simpl in HL; lia). f_equal; f_equal; apply multilinear_ext; intros ix _; cbn [combine map fst snd]; do 2 f_equal; lia.
Qed.
Lemma wrap_fix_shift s : forall ks jx, length ks = length s -> length jx = length s ->
  map (fun p => fix_index PMWrap (fst p) (snd p)) (combine (map (fun p => (fst p + snd p)%Z) (combine (map (fun p => (fst p * Z.of_nat (snd p))%Z) (combine ks s)) jx)) s) =
  map (fun p => fix_index PMWrap (fst p) (snd p)) (combine jx s).
Proof.
  induction s as [|n s IH]; intros [|k ks] [|j jx] H1 H2; try discriminate; [reflexivity|]. cbn [combine map fst snd fix_index]. f_equal; [|apply IH; simpl in *; lia].
  rewrite Z.add_comm. apply Z_mod_plus_full.
Qed.
(* @prop C75 Linear interpolation at a point in mode 'wrap' is periodic: moving the point by whole domain lengths along any axes does not change the result. *)
Lemma point_interpolation_wrap_periodic_lem : forall c p ks cval, has_domain (ggrid c) -> on_grid c -> length p = gndim (ggrid c) -> length ks = gndim (ggrid c) ->
  point_interpolation (map (fun i => nth i p 0 + IZR (nth i ks 0%Z) * len (ggrid c) i) (seq 0 (gndim (ggrid c)))) c 1 PMWrap cval = point_interpolation p c 1 PMWrap cval.
Proof.
  intros c p ks cval Hd Hc Hp Hk. rewrite !point_interpolation_pos by (auto; rewrite map_length, seq_length; reflexivity).
  destruct Hc as (Hs & Ho). set (g := ggrid c) in *.
  rewrite !map_coordinates_one; try (rewrite positions_length, Hs; reflexivity); try discriminate. f_equal.
  assert (E : positions g (goff c) (map (fun i => nth i p 0 + IZR (nth i ks 0%Z) * len g i) (seq 0 (gndim g))) =
     map (fun q => IZR (fst q) + snd q) (combine (map (fun q => (fst q * Z.of_nat (snd q))%Z) (combine ks (gshape g))) (positions g (goff c) p))).
  { assert (HLc : length (combine (map (fun q => (fst q * Z.of_nat (snd q))%Z) (combine ks (gshape g))) (positions g (goff c) p)) = gndim g).
    { rewrite combine_length, map_length, combine_length, positions_length. unfold gndim in *. lia. }
    apply (@list_ext_nth _ 0); [rewrite map_length, positions_length, HLc; reflexivity|].
    intros i Hi. rewrite positions_length in Hi. unfold positions at 1. rewrite nth_map_seq by (rewrite ?positions_length in Hi; auto).
    rewrite nth_map_seq by auto.
    rewrite (@nth_map' _ _ (fun q : Z * R => IZR (fst q) + snd q) _ i (0%Z, 0) 0) by (rewrite HLc; auto).
    rewrite combine_nth by (rewrite map_length, combine_length, positions_length; unfold gndim in *; lia). cbn [fst snd].
    rewrite (@nth_map' _ _ (fun q : Z * nat => (fst q * Z.of_nat (snd q))%Z) _ i (0%Z, 0%nat) 0%Z) by (rewrite combine_length; unfold gndim in *; lia).
    rewrite combine_nth by (unfold gndim in *; lia). cbn [fst snd].
    unfold positions. rewrite nth_map_seq by auto. rewrite mult_IZR, <- INR_IZR_INZ. destruct (proj2 Hd i Hi) as (A & B). unfold cell_width.
    assert (0 < INR (nth i (gshape g) 0%nat)) by (apply lt_0_INR; auto). field. lra. }
  rewrite E. rewrite multilinear_shift by (rewrite map_length, combine_length, positions_length; unfold gndim in *; lia).
  apply multilinear_ext. intros ix Hix. rewrite positions_length in Hix. unfold node_val. rewrite !valid_simple by (split; discriminate). rewrite Hs. rewrite wrap_fix_shift by auto. reflexivity.
Qed.
(* @ex *)
Lemma point_interpolation_wrap_periodic_ex_lem : has_domain (ggrid (garray ipc)) /\ on_grid (garray ipc) /\ length [1; 2] = gndim (ggrid (garray ipc)) /\ length [-3; 5]%Z = gndim (ggrid (garray ipc)).
Proof. split; [exact ipg_dom|]. split; [exact ipc_on|]. split; reflexivity. Qed.
Definition pwa : garr := mkga (mkarr [2%nat] (fun ix => IZR (nth 0 ix 0%Z))) [0%Q] (mkgrid [2%nat] [1] [(0, 2)]).
(* @prop C75 Nearest interpolation (order 0) in mode 'wrap' is not periodic: halves are rounded away from zero, so two points one domain length apart, half way between two nodes, can take the values of different nodes. *)
Lemma point_interpolation_wrap_nearest_refuted_lem : ~ (forall c p ks cval, has_domain (ggrid c) -> on_grid c -> length p = gndim (ggrid c) -> length ks = gndim (ggrid c) ->
  point_interpolation (map (fun i => nth i p 0 + IZR (nth i ks 0%Z) * len (ggrid c) i) (seq 0 (gndim (ggrid c)))) c 0 PMWrap cval = point_interpolation p c 0 PMWrap cval).
Proof.
  intros H. specialize (H pwa [-1/2] [1%Z] 0).
  assert (Hd : has_domain (ggrid pwa)).
  { split; [reflexivity|]. intros i Hi. cbn in Hi. destruct i as [|i]; [| lia]; unfold len; cbn; split; (lia || lra). }
  assert (Ho : on_grid pwa) by (split; reflexivity).
  specialize (H Hd Ho eq_refl eq_refl). rewrite !point_interpolation_pos in H by auto.
  rewrite !map_coordinates_zero in H by (reflexivity || discriminate).
  change (Ok (node_val PMWrap 0 (gdata pwa) [round_away ((-1/2 + 1 * (2 - 0) - 0) / ((2 - 0) / INR 2) - Q2R 0)]) = Ok (node_val PMWrap 0 (gdata pwa) [round_away ((-1/2 - 0) / ((2 - 0) / INR 2) - Q2R 0)])) in H.
  replace ((-1/2 + 1 * (2 - 0) - 0) / ((2 - 0) / INR 2) - Q2R 0) with (3/2) in H by (unfold Q2R; cbn; field).
  replace ((-1/2 - 0) / ((2 - 0) / INR 2) - Q2R 0) with (-1/2) in H by (unfold Q2R; cbn; field).
  unfold round_away in H. destruct (Rlt_dec (3/2) 0); [lra|]. destruct (Rlt_dec (-1/2) 0); [|lra].
  rewrite (@Int_part_unique 2 (3/2 + 1/2)) in H by lra. rewrite (@Int_part_unique 1 (- (-1/2) + 1/2)) in H by lra.
  unfold node_val in H. cbn in H. injection H as H. lra.
Qed.

(** ** mode 'nearest' *)
Lemma multilinear_at_int F k x xs : x = IZR k -> multilinear F (x :: xs) = multilinear (fun ix => F (k :: ix)) xs.
Proof. intros ->. cbn [multilinear]. rewrite Int_part_IZR. ring. Qed.
Definition near_fix (s : list nat) (jx : list Z) : list Z := map (fun p => fix_index PMNearest (fst p) (snd p)) (combine jx s).
Lemma multilinear_clamp s : forall xs (G : list Z -> R), length xs = length s -> (forall i, (i < length s)%nat -> (0 < nth i s 0)%nat) ->
  multilinear (fun jx => G (near_fix s jx)) (map (fun p => clamp 0 (INR (snd p) - 1) (fst p)) (combine xs s)) = multilinear (fun jx => G (near_fix s jx)) xs.
Proof.
  induction s as [|n s IH]; intros [|x xs] G HL Hpos; try discriminate; [reflexivity|].
  assert (Hn : (0 < n)%nat) by (apply (Hpos 0%nat); simpl; lia).
  assert (IH' : forall j, multilinear (fun ix => G (near_fix (n :: s) (j :: ix))) (map (fun p => clamp 0 (INR (snd p) - 1) (fst p)) (combine xs s)) = multilinear (fun ix => G (near_fix (n :: s) (j :: ix))) xs).
  { intros j. apply (IH xs (fun l => G (fix_index PMNearest j n :: l))); [simpl in HL; lia | intros i Hi; apply (Hpos (S i)); simpl; lia]. }
  assert (SAME : forall j j', fix_index PMNearest j n = fix_index PMNearest j' n -> multilinear (fun ix => G (near_fix (n :: s) (j :: ix))) xs = multilinear (fun ix => G (near_fix (n :: s) (j' :: ix))) xs).
  { intros j j' E. apply multilinear_ext. intros ix _. unfold near_fix. cbn [combine map fst snd]. rewrite E. reflexivity. }
  cbn [combine map fst snd]. assert (HI : 1 <= INR n) by (apply (le_INR 1); lia). destruct (base_Int_part x) as (A & B).
  rewrite INR_IZR_INZ in *.
  destruct (Rlt_dec x 0) as [Hx | Hx].
  - rewrite (@multilinear_at_int _ 0%Z) by (unfold clamp; rewrite Rmin_left, Rmax_left by lra; reflexivity). rewrite IH'. cbn [multilinear].
    assert (K : (Int_part x < 0)%Z) by (apply lt_IZR; lra).
    rewrite (SAME (Int_part x) 0%Z), (SAME (Int_part x + 1)%Z 0%Z) by (cbn [fix_index]; lia). ring.
  - destruct (Rlt_dec (IZR (Z.of_nat n) - 1) x) as [Hy | Hy].
    + rewrite (@multilinear_at_int _ (Z.of_nat n - 1)%Z) by (unfold clamp; rewrite Rmin_right, Rmax_right, minus_IZR by lra; reflexivity). rewrite IH'. cbn [multilinear].
      assert (K : (Z.of_nat n - 2 < Int_part x)%Z) by (apply lt_IZR; rewrite minus_IZR; lra).
      rewrite (SAME (Int_part x) (Z.of_nat n - 1)%Z), (SAME (Int_part x + 1)%Z (Z.of_nat n - 1)%Z) by (cbn [fix_index]; lia). ring.
    + replace (clamp 0 (IZR (Z.of_nat n) - 1) x) with x by (unfold clamp; rewrite Rmin_left, Rmax_right by lra; reflexivity).
      cbn [multilinear]. rewrite !IH'. reflexivity.
Qed.
Lemma clamp_affine lo hi x w b : 0 < w -> (clamp lo hi x - b) / w = clamp ((lo - b) / w) ((hi - b) / w) ((x - b) / w).
Proof.
  intros Hw. assert (M : forall u v, u <= v -> (u - b) / w <= (v - b) / w).
  { intros u v H. unfold Rdiv. apply Rmult_le_compat_r; [left; apply Rinv_0_lt_compat; auto | lra]. }
  unfold clamp, Rmax, Rmin. pose proof (M x hi). pose proof (M hi x). 
  destruct (Rle_dec x hi) as [a|a].
  - destruct (Rle_dec ((x - b) / w) ((hi - b) / w)) as [c|c]; [|lra]. pose proof (M lo x). pose proof (M x lo). destruct (Rle_dec lo x), (Rle_dec ((lo - b) / w) ((x - b) / w)); try reflexivity; lra.
  - destruct (Rle_dec ((x - b) / w) ((hi - b) / w)) as [c|c].
    + assert (E : (x - b) / w = (hi - b) / w) by (apply Rle_antisym; [auto | apply H0; lra]). rewrite E.
      pose proof (M lo hi). pose proof (M hi lo). destruct (Rle_dec lo hi), (Rle_dec ((lo - b) / w) ((hi - b) / w)); try reflexivity; lra.
    + pose proof (M lo hi). pose proof (M hi lo). destruct (Rle_dec lo hi), (Rle_dec ((lo - b) / w) ((hi - b) / w)); try reflexivity; lra.
Qed.
Lemma clamp_shift lo hi x b : clamp lo hi x - b = clamp (lo - b) (hi - b) (x - b).
Proof. pose proof (@clamp_affine lo hi x 1 b ltac:(lra)) as H. unfold Rdiv in H. rewrite Rinv_1, !Rmult_1_r in H. exact H. Qed.
(* @prop C75 Linear interpolation at a point in mode 'nearest', the default, outside the box spanned by the nodes returns the value at the nearest point of that box. *)
Lemma point_interpolation_clamped_lem : forall c p cval, has_domain (ggrid c) -> on_grid c -> length p = gndim (ggrid c) ->
  point_interpolation p c 1 PMNearest cval = point_interpolation (clamped (ggrid c) (goff c) p) c 1 PMNearest cval.
Proof.
  intros c p cval Hd Hc Hp. rewrite !point_interpolation_pos by (auto; unfold clamped; rewrite map_length, seq_length; reflexivity).
  destruct Hc as (Hs & Ho). set (g := ggrid c) in *. set (o := goff c) in *.
  rewrite !map_coordinates_one; try (rewrite positions_length, Hs; reflexivity); try discriminate. f_equal.
  assert (E : positions g o (clamped g o p) = map (fun q => clamp 0 (INR (snd q) - 1) (fst q)) (combine (positions g o p) (gshape g))).
  { apply (@list_ext_nth _ 0); [rewrite map_length, combine_length, !positions_length; unfold gndim; lia|]. intros i Hi. rewrite positions_length in Hi.
    rewrite (@nth_map' _ _ (fun q : R * nat => clamp 0 (INR (snd q) - 1) (fst q)) _ i (0, 0%nat) 0) by (rewrite combine_length, positions_length; unfold gndim in *; lia).
    rewrite combine_nth by (rewrite positions_length; reflexivity). cbn [fst snd].
    unfold positions. rewrite !nth_map_seq by auto. unfold clamped. rewrite nth_map_seq by auto. pose proof (cell_width_pos Hd Hi) as Hw.
    rewrite clamp_affine, clamp_shift by auto. f_equal; field; lra. }
  rewrite E.
  assert (N : forall xs, length xs = gndim g -> multilinear (node_val PMNearest cval (gdata c)) xs = multilinear (fun jx => get (gdata c) (near_fix (gshape g) jx)) xs).
  { intros xs _. apply multilinear_ext. intros ix _. unfold node_val. rewrite valid_simple by (split; discriminate). rewrite Hs. reflexivity. }
  rewrite !N by (rewrite ?map_length, ?combine_length, positions_length; unfold gndim; lia).
  symmetry. apply multilinear_clamp; [apply positions_length|]. intros i Hi. apply (proj2 Hd). auto.
Qed.
(* @ex *)
Lemma point_interpolation_clamped_ex_lem : has_domain (ggrid (garray ipc)) /\ on_grid (garray ipc) /\ length [17; -5] = gndim (ggrid (garray ipc)) /\
  clamped (ggrid (garray ipc)) (goff (garray ipc)) [17; -5] = [7/2; 1].
Proof.
  split; [exact ipg_dom|]. split; [exact ipc_on|]. split; [reflexivity|].
  unfold clamped, cell_width, low, len, Q2R, clamp. cbn. f_equal; [rewrite Rmin_right, Rmax_right by lra; lra | f_equal; rewrite Rmin_left, Rmax_left by lra; lra].
Qed.

(** ** agreement with interpolation to an offset *)
Lemma Int_part_Qfloor q : Int_part (Q2R q) = Qfloor q.
Proof.
  apply Int_part_unique. pose proof (frac_range q) as H. rewrite Q2R_minus in H. unfold inject_Z in H. replace (Q2R (Qfloor q # 1)) with (IZR (Qfloor q)) in H by (unfold Q2R; cbn; field). lra.
Qed.
Lemma multilinear_snoc x : forall xs (G : list Z -> R), multilinear G (xs ++ [x]) =
  (1 - (x - IZR (Int_part x))) * multilinear (fun jx => G (jx ++ [Int_part x])) xs + (x - IZR (Int_part x)) * multilinear (fun jx => G (jx ++ [(Int_part x + 1)%Z])) xs.
Proof.
  induction xs as [|y xs IH]; intros G; [reflexivity|]. cbn [app multilinear]. rewrite !IH. ring.
Qed.
Lemma skipn_shiftix m k ix : (m < length ix)%nat -> skipn m (shiftix m k ix) = (nth m ix 0 + k)%Z :: skipn (S m) ix.
Proof.
  unfold shiftix. revert m. induction ix as [|i ix IH]; intros m H; [simpl in H; lia|]. destruct m as [|m]; [reflexivity|]. cbn [upd skipn nth]. apply IH. simpl in H. lia.
Qed.
Lemma nth_shiftix_other m k ix i : i <> m -> nth i (shiftix m k ix) 0%Z = nth i ix 0%Z.
Proof. intros H. unfold shiftix. apply nth_upd_other. auto. Qed.
Lemma lerp_multilinear o o' F : forall m ix, (m <= length ix)%nat ->
  lerp m o o' F ix = multilinear (fun jx => F (jx ++ skipn m ix)) (map (fun i => IZR (nth i ix 0%Z) + (Q2R (nth i o' 0%Q) - Q2R (nth i o 0%Q))) (seq 0 m)).
Proof.
  induction m as [|m IH]; intros ix Hm; [reflexivity|].
  cbn [lerp]. unfold lerp_axis. set (dq := (nth m o' 0 - nth m o 0)%Q). rewrite !IH by (rewrite shiftix_length; lia).
  rewrite seq_S, map_app. cbn [map Nat.add]. rewrite multilinear_snoc.
  assert (ED : Q2R (nth m o' 0%Q) - Q2R (nth m o 0%Q) = Q2R dq) by (unfold dq; rewrite Q2R_minus; reflexivity). rewrite ED, Int_part_shift, Int_part_Qfloor.
  assert (EW : IZR (nth m ix 0%Z) + Q2R dq - IZR (nth m ix 0%Z + Qfloor dq) = Q2R (dq - inject_Z (Qfloor dq))).
  { rewrite plus_IZR, Q2R_minus. unfold inject_Z. replace (Q2R (Qfloor dq # 1)) with (IZR (Qfloor dq)) by (unfold Q2R; cbn; field). ring. }
  rewrite EW.
  assert (K : forall k, multilinear (fun jx => F (jx ++ skipn m (shiftix m k ix))) (map (fun i => IZR (nth i (shiftix m k ix) 0%Z) + (Q2R (nth i o' 0%Q) - Q2R (nth i o 0%Q))) (seq 0 m)) =
     multilinear (fun jx => F ((jx ++ [(nth m ix 0 + k)%Z]) ++ skipn (S m) ix)) (map (fun i => IZR (nth i ix 0%Z) + (Q2R (nth i o' 0%Q) - Q2R (nth i o 0%Q))) (seq 0 m))).
  { intros k. replace (map (fun i => IZR (nth i (shiftix m k ix) 0%Z) + (Q2R (nth i o' 0%Q) - Q2R (nth i o 0%Q))) (seq 0 m)) with (map (fun i => IZR (nth i ix 0%Z) + (Q2R (nth i o' 0%Q) - Q2R (nth i o 0%Q))) (seq 0 m)).
    - apply multilinear_ext. intros jx _. rewrite skipn_shiftix by lia. rewrite <- app_assoc. reflexivity.
    - apply map_ext_in. intros i Hi. apply in_seq in Hi. rewrite nth_shiftix_other by lia. reflexivity. }
  rewrite !K. rewrite Z.add_assoc. reflexivity.
Qed.
Lemma near_wrap s : forall jx, length jx = length s -> map (fun p => fix_index PMWrap (fst p) (snd p)) (combine jx s) = wrap s jx.
Proof. induction s as [|n s IH]; intros [|j jx] H; try discriminate; [reflexivity|]. cbn [combine map wrap fst snd fix_index]. f_equal. apply IH. simpl in H. lia. Qed.
(* @prop C75 For periodic fields, interpolation at a point in mode 'wrap' agrees with interpolation to an offset: the field interpolated linearly to any offset holds, in every cell, the value of linear point interpolation at the point at that offset of the cell. *)
Lemma point_interpolation_agrees_lem : forall c o' w ix cval, periodic_field c -> has_domain (ggrid (garray c)) -> length o' = gndim (ggrid (garray c)) ->
  linear_interp c o' = Ok w -> inb (gshape (ggrid (garray c))) ix ->
  point_interpolation (cell_point (ggrid (garray c)) o' ix) (garray c) 1 PMWrap cval = Ok (get (gdata (garray w)) ix).
Proof.
  intros c o' w ix cval Hc Hd Ho' E Hi. destruct (linear_interpolation_spec_lem o' Hc Ho') as (w' & E' & _ & (_ & _ & _ & V)). rewrite E in E'. injection E' as <-.
  rewrite V by auto. pose proof (pf_off Hc) as Ho. destruct Hc as ((_ & Hs & _) & _). set (g := ggrid (garray c)) in *. pose proof (inb_length _ _ Hi) as Hl.
  rewrite point_interpolation_pos; [| auto | split; auto | unfold cell_point; rewrite map_length, seq_length; reflexivity].
  rewrite map_coordinates_one; [| rewrite positions_length, Hs; reflexivity | discriminate]. f_equal. fold g. rewrite positions_cell by auto.
  rewrite lerp_multilinear by (rewrite Hl; unfold gndim; lia). apply multilinear_ext. intros jx Hjx. rewrite map_length, seq_length in Hjx.
  rewrite skipn_all2 by (rewrite Hl; unfold gndim; lia). rewrite app_nil_r. unfold node_val, pval. rewrite valid_simple by (split; discriminate). rewrite Hs, near_wrap by auto. reflexivity.
Qed.
(* @ex *)
Lemma point_interpolation_agrees_ex_lem : periodic_field ipc /\ has_domain (ggrid (garray ipc)) /\ exists w, linear_interp ipc [1%Q; (1 # 4)%Q] = Ok w.
Proof. split; [exact ipc_pf|]. split; [exact ipg_dom|]. apply linear_interpolation_bounded_ex_lem. Qed.

(* @prop C75 Point interpolation refuses interpolation orders above 1, modes that are not documented and points with another number of coordinates than the grid, instead of guessing. *)
Lemma point_interpolation_refuses_lem : forall c p order mode cval, has_domain (ggrid c) -> on_grid c ->
  (length p <> gndim (ggrid c) -> point_interpolation p c order mode cval = Err EType) /\
  (length p = gndim (ggrid c) -> mode = PMOther -> point_interpolation p c order mode cval = Err ENotImpl) /\
  (length p = gndim (ggrid c) -> (0 < gndim (ggrid c))%nat -> (2 <= order)%nat -> point_interpolation p c order mode cval = Err ENotImpl).
Proof.
  intros c p order mode cval Hd Hc. split; [|split].
  - intros Hp. unfold point_interpolation. destruct (Nat.eqb_spec (length p) (gndim (ggrid c))); [contradiction | reflexivity].
  - intros Hp ->. rewrite point_interpolation_pos by auto. destruct Hc as (Hs & _). unfold map_coordinates. rewrite positions_length, Hs. unfold gndim. rewrite Nat.eqb_refl. reflexivity.
  - intros Hp Hn Ho. rewrite point_interpolation_pos by auto. destruct Hc as (Hs & _). unfold map_coordinates. rewrite positions_length, Hs. unfold gndim. rewrite Nat.eqb_refl. cbn [negb].
    pose proof (positions_length (ggrid c) (goff c) p) as HL. unfold gndim in HL, Hn.
    destruct (positions (ggrid c) (goff c) p) as [|x xs]; [simpl in HL; lia|]. destruct (gshape (ggrid c)) as [|n s]; [simpl in Hn; lia|].
    destruct order as [|[|o]]; [lia | lia |]. destruct mode; reflexivity.
Qed.
(* @ex *)
Lemma point_interpolation_refuses_ex_lem : has_domain (ggrid (garray ipc)) /\ on_grid (garray ipc) /\ length [1; 2; 3] <> gndim (ggrid (garray ipc)) /\ length [1; 2] = gndim (ggrid (garray ipc)).
Proof. split; [exact ipg_dom|]. split; [exact ipc_on|]. split; [discriminate | reflexivity]. Qed.
