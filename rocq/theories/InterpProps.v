(** * C24-C26: interpolation *)
From Coq Require Import Qreals.
From Verif Require Import Prelude NdArr Grids_model Spec Boundaries_model BoundariesPeriodic FD_model PRep FDProofs FDProps Interp_model InterpProofs.
Set Implicit Arguments.
Local Open Scope Z_scope.

Lemma pf_wfg u : periodic_field u -> wfg (ggrid (garray u)).
Proof. intros ((H & _) & _). exact H. Qed.
Lemma pf_off u : periodic_field u -> length (goff (garray u)) = gndim (ggrid (garray u)).
Proof. intros ((_ & _ & H) & _). exact H. Qed.
Lemma pval_bounds u m M : periodic_field u ->
  (forall ix, inb (gshape (ggrid (garray u))) ix -> (m <= get (gdata (garray u)) ix <= M)%R) ->
  forall ix, length ix = gndim (ggrid (garray u)) -> (m <= pval (garray u) ix <= M)%R.
Proof.
  intros ((Hg & Hs & Ho) & Hb) H ix HL. unfold pval. apply H. rewrite Hs. apply inb_wrap; [apply Hg | exact HL].
Qed.

(* @prop C24 Linear interpolation of a periodic variable to any offset returns a variable at exactly that offset, with the same grid and boundary conditions, whose values are the multilinear interpolation (weights 1-f and f on the two nearest neighbours, axis by axis). *)
Lemma linear_interpolation_spec_lem : forall c o', periodic_field c -> length o' = gndim (ggrid (garray c)) ->
  exists w, linear_interp c o' = Ok w /\ gbc w = gbc c /\
    is_field (garray w) (ggrid (garray c)) o'
      (lerp (gndim (ggrid (garray c))) (goff (garray c)) o' (pval (garray c))).
Proof.
  intros c o' Hc Ho'.
  destruct (lin_all_prep o' (pf_wfg Hc) (pf_per Hc) (pf_off Hc) Ho' (pf_pvar Hc)) as (w & E & Eb & (P & _)).
  exists w. auto.
Qed.
Definition ipg : grid := mkgrid [4%nat; 2%nat] [1%R; 2%R] [(0%R, 4%R); (0%R, 4%R)].
Definition ipc : gvar := mkgv (mkga (mkarr [4%nat; 2%nat] (fun ix => IZR (10 * nth 0%nat ix 0 + nth 1%nat ix 0))) [(1 # 2)%Q; (1 # 2)%Q] ipg) (periodic_bc 2).
Lemma ipg_wf : wfg ipg.
Proof. repeat split; repeat constructor; (lia || lra). Qed.
Lemma ipc_pf : periodic_field ipc.
Proof. split; [split; [exact ipg_wf|]; split; reflexivity | reflexivity]. Qed.
(* @ex *)
Lemma linear_interpolation_spec_ex_lem :
  periodic_field ipc /\
  lerp 2 (goff (garray ipc)) [1%Q; (1 # 4)%Q] (pval (garray ipc)) [0; 1] = (5 + 3 / 4)%R /\
  lerp 2 (goff (garray ipc)) [1%Q; (1 # 2)%Q] (pval (garray ipc)) [3; 0] = 15%R.
Proof.
  split; [exact ipc_pf|]. split.
  - cbn [lerp]. unfold lerp_axis. cbn -[Q2R]. unfold pval, Q2R; cbn. lra.
  - cbn [lerp]. unfold lerp_axis. cbn -[Q2R]. unfold pval, Q2R; cbn. lra.
Qed.

(* @prop C24 Interpolating to the variable's own offset returns the variable itself, whatever its boundary conditions. *)
Lemma linear_interpolation_identity_lem : forall c o', off_eq o' (goff (garray c)) -> linear_interp c o' = Ok c.
Proof.
  intros c o' H. unfold linear_interp. rewrite (off_eq_length H), Nat.eqb_refl. cbn [negb].
  assert (Hg : forall l, (forall p, In p l -> (snd p == nth (fst p) (goff (garray c)) 0)%Q) ->
    foldM (fun acc ao => linear_along_axis acc (snd ao) (fst ao)) c l = Ok c).
  { induction l as [|p l IH]; intros Hl; simpl; [reflexivity|].
    unfold linear_along_axis at 1. replace (Qeq_bool (snd p - nth (fst p) (goff (garray c)) 0)%Q 0) with true.
    - cbn [bind]. apply IH. intros q Hq. apply Hl. right; auto.
    - symmetry. apply Qeq_bool_iff. rewrite (Hl p) by (left; auto). ring. }
  apply Hg. intros [a q] Hp. cbn [fst snd].
  rewrite <- (off_eq_length H) in Hp. apply In_nth with (d := (0%nat, 0%Q)) in Hp. destruct Hp as (k & Hk & E).
  rewrite combine_length, seq_length, Nat.min_id in Hk.
  rewrite combine_nth in E by (rewrite seq_length; auto). rewrite seq_nth in E by auto. injection E as <- <-.
  apply (off_eq_nth k H).
Qed.
(* @ex *)
Lemma linear_interpolation_identity_ex_lem : off_eq [(2 # 4)%Q; (1 # 2)%Q] (goff (garray ipc)).
Proof. repeat constructor. Qed.

(* @prop C24 A target offset with a number of entries different from the variable's offset raises ValueError. *)
Lemma linear_interpolation_bad_length_lem : forall c o', length o' <> length (goff (garray c)) -> linear_interp c o' = Err EValue.
Proof. intros c o' H. unfold linear_interp. destruct (Nat.eqb_spec (length o') (length (goff (garray c)))); [contradiction | reflexivity]. Qed.
(* @ex *)
Lemma linear_interpolation_bad_length_ex_lem : length [(1 # 2)%Q] <> length (goff (garray ipc)).
Proof. simpl. lia. Qed.

Lemma lerp_bounds (s : list nat) n o o' F m M : (forall ix, length ix = length s -> (m <= F ix <= M)%R) ->
  forall ix, length ix = length s -> (m <= lerp n o o' F ix <= M)%R.
Proof. intros H. induction n as [|n IH]; simpl; auto. apply lerp_axis_bounds; auto. Qed.
Lemma lerp_sum s n o o' F : allpos s -> periodic s F -> asum s (lerp n o o' F) = asum s F.
Proof. intros Hp HF. induction n as [|n IH]; simpl; auto. rewrite lerp_axis_sum; auto. apply lerp_periodic; auto. Qed.

(* @prop C24 Linear interpolation creates no new extrema: every interpolated value lies within any bounds on the data (in particular constants are preserved). *)
Lemma linear_interpolation_bounded_lem : forall c o' w m M, periodic_field c -> length o' = gndim (ggrid (garray c)) ->
  linear_interp c o' = Ok w ->
  (forall ix, inb (gshape (ggrid (garray c))) ix -> (m <= get (gdata (garray c)) ix <= M)%R) ->
  forall ix, inb (gshape (ggrid (garray c))) ix -> (m <= get (gdata (garray w)) ix <= M)%R.
Proof.
  intros c o' w m M Hc Ho' E H ix Hix.
  destruct (linear_interpolation_spec_lem o' Hc Ho') as (w' & E' & _ & (_ & _ & _ & V)). rewrite E in E'. injection E' as <-.
  rewrite V by auto. apply (@lerp_bounds (gshape (ggrid (garray c)))); [|apply inb_length; auto].
  apply pval_bounds; auto.
Qed.
(* @ex *)
Lemma linear_interpolation_bounded_ex_lem :
  periodic_field ipc /\ (exists w, linear_interp ipc [1%Q; (1 # 4)%Q] = Ok w) /\
  (forall ix, inb [4%nat; 2%nat] ix -> (0 <= get (gdata (garray ipc)) ix <= 31)%R).
Proof.
  split; [exact ipc_pf|]. split.
  - destruct (@linear_interpolation_spec_lem ipc [1%Q; (1 # 4)%Q] ipc_pf eq_refl) as (w & E & _). eauto.
  - intros [|i [|j [|k l]]] H; cbn in H; try tauto. cbn [ipc garray gdata get nth]. split; apply IZR_le; lia.
Qed.

(* @prop C24 Linear interpolation of a periodic variable preserves its sum over all cells. *)
Lemma linear_interpolation_total_lem : forall c o' w, periodic_field c -> length o' = gndim (ggrid (garray c)) ->
  linear_interp c o' = Ok w -> total (gdata (garray w)) = total (gdata (garray c)).
Proof.
  intros c o' w Hc Ho' E.
  destruct (linear_interpolation_spec_lem o' Hc Ho') as (w' & E' & _ & P). rewrite E in E'. injection E' as <-.
  rewrite (total_prep P), lerp_sum; [|apply (pf_wfg Hc) | apply pf_per; auto].
  symmetry. apply (@total_prep _ (goff (garray c))). apply pf_pvar; auto.
Qed.
(* @ex *)
Lemma linear_interpolation_total_ex_lem :
  periodic_field ipc /\ (exists w, linear_interp ipc [1%Q; (1 # 4)%Q] = Ok w) /\ total (gdata (garray ipc)) = 124%R.
Proof.
  split; [exact ipc_pf|]. split; [apply linear_interpolation_bounded_ex_lem|]. unfold total. cbn. lra.
Qed.

Lemma affine_upd_off g o c sl n q ix : (n < gndim g)%nat -> length o = gndim g ->
  affine g (upd n q o) c sl ix = (affine g o c sl ix + sl n * (Q2R q - Q2R (nth n o 0%Q)) * hstep g n)%R.
Proof.
  intros Hn Ho. unfold affine.
  assert (E : nsum (gndim g) (fun a => sl a * coord g (upd n q o) a ix)%R =
    (nsum (gndim g) (fun a => sl a * coord g o a ix) + nsum (gndim g) (fun a => if (a =? n)%nat then sl n * (Q2R q - Q2R (nth n o 0%Q)) * hstep g n else 0))%R).
  { rewrite <- nsum_plus. apply nsum_ext. intros a Ha. unfold coord. destruct (Nat.eqb_spec a n) as [->|Hne].
    - rewrite nth_upd_same by lia. ring.
    - rewrite nth_upd_other by auto. ring. }
  rewrite E.
  assert (Hs : forall (x : R) d, (n < d)%nat -> nsum d (fun a => if (a =? n)%nat then x else 0%R) = x).
  { intros x. induction d as [|d IH]; intros Hd; [lia|]. rewrite nsum_S. destruct (Nat.eqb_spec d n) as [->|Hne].
    - rewrite nsum_zero; [ring|]. intros i Hi. destruct (Nat.eqb_spec i n); [lia | reflexivity].
    - rewrite IH by lia. ring. }
  rewrite Hs by auto. ring.
Qed.

Lemma lerp_affine_gen g o o' c sl F ix0 : length o = gndim g -> length o' = gndim g -> length ix0 = gndim g ->
  forall n, (n <= gndim g)%nat -> forall ix, length ix = gndim g ->
  (forall a, (n <= a < gndim g)%nat -> nth a ix 0 = nth a ix0 0 + Qfloor (nth a o' 0 - nth a o 0)%Q \/ nth a ix 0 = nth a ix0 0 + Qfloor (nth a o' 0 - nth a o 0)%Q + 1) ->
  (forall a, (a < n)%nat -> nth a ix 0 = nth a ix0 0) ->
  (forall jx, length jx = gndim g -> (forall a, (a < gndim g)%nat -> nth a jx 0 = nth a ix0 0 + Qfloor (nth a o' 0 - nth a o 0)%Q \/ nth a jx 0 = nth a ix0 0 + Qfloor (nth a o' 0 - nth a o 0)%Q + 1) ->
     F jx = affine g o c sl jx) ->
  lerp n o o' F ix = affine g (firstn n o' ++ skipn n o) c sl ix.
Proof.
  intros Ho Ho' H0. induction n as [|n IH]; intros Hn ix HL Hhi Hlo HF.
  - cbn [lerp firstn skipn app]. apply HF; auto. intros a Ha. apply Hhi. lia.
  - cbn [lerp]. unfold lerp_axis. set (d := (nth n o' 0 - nth n o 0)%Q).
    assert (Hsh : forall k, (k = Qfloor d \/ k = Qfloor d + 1) ->
      lerp n o o' F (shiftix n k ix) = affine g (firstn n o' ++ skipn n o) c sl (shiftix n k ix)).
    { intros k Hk. apply IH; auto; try lia.
      - rewrite shiftix_length. auto.
      - intros a Ha. unfold shiftix. destruct (Nat.eq_dec a n) as [->|Hne].
        + rewrite nth_upd_same by lia. rewrite (Hlo n) by lia. fold d. destruct Hk; lia.
        + rewrite nth_upd_other by auto. apply Hhi. lia.
      - intros a Ha. unfold shiftix. rewrite nth_upd_other by lia. apply Hlo. lia. }
    rewrite !Hsh by auto. rewrite !affine_shift by (auto; lia).
    assert (Hup : off_eq (firstn (S n) o' ++ skipn (S n) o) (upd n (nth n o' 0%Q) (firstn n o' ++ skipn n o))).
    { apply off_eq_intro; [rewrite upd_length, !app_length, !firstn_length, !skipn_length; lia|].
      intros k Hk. rewrite app_length, firstn_length, skipn_length in Hk.
      assert (Hmix : forall m, (m <= gndim g)%nat -> nth k (firstn m o' ++ skipn m o) 0%Q = if (k <? m)%nat then nth k o' 0%Q else nth k o 0%Q).
      { intros m Hm. destruct (Nat.ltb_spec k m) as [Hlt|Hge].
        - rewrite app_nth1 by (rewrite firstn_length; lia). rewrite <- (firstn_skipn m o') at 2. rewrite app_nth1 by (rewrite firstn_length; lia). reflexivity.
        - rewrite app_nth2 by (rewrite firstn_length; lia). rewrite <- (firstn_skipn m o) at 2. rewrite app_nth2 by (rewrite firstn_length; lia).
          rewrite !firstn_length, !Nat.min_l by lia. reflexivity. }
      destruct (Nat.eq_dec k n) as [->|Hne].
      - rewrite nth_upd_same by (rewrite app_length, firstn_length, skipn_length; lia). rewrite Hmix by lia.
        destruct (Nat.ltb_spec n (S n)); [reflexivity | lia].
      - rewrite nth_upd_other by auto. rewrite !Hmix by lia. destruct (Nat.ltb_spec k n), (Nat.ltb_spec k (S n)); try lia; reflexivity. }
    assert (Haff : forall o1 o2 jx, off_eq o1 o2 -> affine g o1 c sl jx = affine g o2 c sl jx).
    { intros o1 o2 jx Heq. unfold affine. f_equal. apply nsum_ext. intros a Ha. unfold coord. rewrite (Qeq_eqR _ _ (off_eq_nth a Heq)). reflexivity. }
    rewrite (Haff _ _ ix Hup), affine_upd_off by (auto; rewrite ?app_length, ?firstn_length, ?skipn_length; lia).
    assert (Hnn : nth n (firstn n o' ++ skipn n o) 0%Q = nth n o 0%Q).
    { rewrite app_nth2; rewrite firstn_length; [|lia]. rewrite Nat.min_l by lia. rewrite Nat.sub_diag. rewrite <- (firstn_skipn n o) at 2.
      rewrite app_nth2; rewrite firstn_length; [|lia]. rewrite Nat.min_l by lia. rewrite Nat.sub_diag. reflexivity. }
    rewrite Hnn. rewrite plus_IZR. rewrite (Q2R_minus d).
    replace (Q2R (inject_Z (Qfloor d))) with (IZR (Qfloor d)) by (unfold Q2R, inject_Z; simpl; field).
    assert (EQ : Q2R d = (Q2R (nth n o' 0%Q) - Q2R (nth n o 0%Q))%R) by (unfold d; apply Q2R_minus).
    rewrite EQ. set (z := IZR (Qfloor d)). ring.
Qed.

(* @prop C24 Linear interpolation reproduces samples of an affine function of position wherever its stencil does not wrap around the domain. *)
Lemma linear_interpolation_affine_lem : forall c o' w a0 sl ix, periodic_field c -> length o' = gndim (ggrid (garray c)) ->
  linear_interp c o' = Ok w ->
  (forall jx, inb (gshape (ggrid (garray c))) jx ->
     get (gdata (garray c)) jx = affine (ggrid (garray c)) (goff (garray c)) a0 sl jx) ->
  inb (gshape (ggrid (garray c))) ix ->
  (forall a, (a < gndim (ggrid (garray c)))%nat ->
     0 <= nth a ix 0 + Qfloor (nth a o' 0 - nth a (goff (garray c)) 0)%Q /\
     nth a ix 0 + Qfloor (nth a o' 0 - nth a (goff (garray c)) 0)%Q + 1 < Z.of_nat (nth a (gshape (ggrid (garray c))) 0%nat)) ->
  get (gdata (garray w)) ix = affine (ggrid (garray c)) o' a0 sl ix.
Proof.
  intros c o' w a0 sl ix Hc Ho' E Hd Hix Hin.
  destruct (linear_interpolation_spec_lem o' Hc Ho') as (w' & E' & _ & (_ & _ & _ & V)). rewrite E in E'. injection E' as <-.
  rewrite V by auto.
  rewrite (@lerp_affine_gen (ggrid (garray c)) (goff (garray c)) o' a0 sl (pval (garray c)) ix); auto.
  - rewrite firstn_all2 by lia. rewrite skipn_all2 by (rewrite (pf_off Hc); lia). rewrite app_nil_r. reflexivity.
  - apply pf_off; auto.
  - apply inb_length; auto.
  - apply inb_length; auto.
  - intros a Ha. lia.
  - intros jx HL Hj. assert (Hj' : inb (gshape (ggrid (garray c))) jx).
    { apply inb_intro; [exact HL|]. intros a Ha. specialize (Hj a Ha). specialize (Hin a Ha). lia. }
    rewrite pval_inb; [auto|]. destruct Hc as ((_ & Hs & _) & _). rewrite Hs. exact Hj'.
Qed.
(* @ex *)
Lemma linear_interpolation_affine_ex_lem :
  (forall jx, inb [4%nat; 2%nat] jx -> get (gdata (garray ipc)) jx = affine ipg (goff (garray ipc)) (- (5 + / 2)) (fun a => if (a =? 0)%nat then 10 else / 2)%R jx) /\
  (0 <= 1 + Qfloor (1 - (1 # 2))%Q /\ 1 + Qfloor (1 - (1 # 2))%Q + 1 < 4) /\ (0 <= 1 + Qfloor ((1 # 4) - (1 # 2))%Q /\ 1 + Qfloor ((1 # 4) - (1 # 2))%Q + 1 < 2).
Proof.
  split; [|cbn; lia].
  intros [|i [|j [|k l]]] H; cbn in H; try tauto. unfold affine, nsum, coord, hstep, gndim, Q2R. cbn -[IZR Z.mul].
  rewrite plus_IZR, mult_IZR. lra.
Qed.
