(** * What the code around a neural network guarantees, whatever the network computes (C62) *)
From Verif Require Import Prelude NdArr Grids_model Spec SpecNS Boundaries_model BoundariesPeriodic FD_model Interp_model Advection_model ArrayUtils_model Equations_model PRep FDProofs FDProps InterpProps ArrayUtilsProps PressureProps PressureSolveProps EquationsProps Networks_model.
Set Implicit Arguments.
Local Open Scope Z_scope.

(** ** Channels *)
Lemma inb_app s n : forall ix k, inb s ix -> 0 <= k < Z.of_nat n -> inb (s ++ [n]) (ix ++ [k]).
Proof. induction s as [|m s IH]; intros [|i ix] k H Hk; cbn [inb app] in *; try tauto. split; [tauto | apply IH; tauto]. Qed.
Lemma without_app {T} (s : list T) x : without (length s) (s ++ [x]) = s.
Proof. unfold without. induction s as [|y s IH]; [reflexivity|]. cbn. f_equal. exact IH. Qed.
Lemma nth_app_last {T} (s : list T) x d : nth (length s) (s ++ [x]) d = x.
Proof. induction s; auto. Qed.
Lemma last_axis (s : list nat) (n : nat) : denotes (-1) (length (s ++ [n])) (length s).
Proof. unfold denotes. rewrite app_length. cbn [length]. lia. Qed.
Lemma skipn_cons {T} s : forall (o : list T) q r, skipn s o = q :: r -> skipn (S s) o = r.
Proof. induction s as [|s IH]; intros [|x o] q r E; try discriminate; [cbn in *; congruence | apply (IH o q r); exact E]. Qed.
Lemma F2_single {X Y} (P : X -> Y -> Prop) x y : Forall2 P [x] [y] -> P x y.
Proof. intros H. inversion H; auto. Qed.
Lemma split_channels_ok s n (x : arr R) : shp x = s ++ [n] -> (0 < n)%nat ->
  exists l, split_channels x = Ok l /\ length l = n /\ forall k d, (k < n)%nat -> shp (nth k l d) = s /\ forall ix, inb s ix -> get (nth k l d) ix = get x (ix ++ [Z.of_nat k]).
Proof.
  intros Hs Hn. unfold split_channels.
  destruct (@split_axis_spec_lem R [x] (-1) n false) as (out & E & L & H); [discriminate | exact Hn | |].
  { intros a [<- | []]. exists (length s). unfold ndim. rewrite Hs. split; [apply last_axis | apply nth_app_last]. }
  rewrite E. cbn [bind]. clear E.
  destruct (@mapM_F2 _ _ (leaf 0) (fun (t : list (arr R)) a => exists a', t = [a'] /\ a = a') out) as (l & El & Hl).
  { intros t Ht. destruct (In_nth_error _ _ Ht) as (k & Hk). specialize (H k t Hk). inversion H as [|? p ? q Hp Hq]; subst. inversion Hq; subst. exists p. split; [reflexivity|]. exists p. auto. }
  exists l. split; [exact El|]. pose proof (F2_length Hl) as LL. split; [lia|]. intros k d Hk.
  destruct (nth_error out k) as [t|] eqn:Et; [|apply nth_error_None in Et; lia]. destruct (nth_error l k) as [a|] eqn:Ea; [|apply nth_error_None in Ea; lia].
  destruct (@F2_nth _ _ _ _ _ _ _ _ Hl Et Ea) as (a' & -> & <-). rewrite (nth_error_nth _ _ _ Ea).
  specialize (H k [a] Et). pose proof (F2_single H) as Hp. cbv beta in Hp. destruct Hp as (ax & Dx & S1 & S2).
  assert (ax = length s).
  { unfold ndim in Dx. rewrite Hs in Dx. pose proof (last_axis s n) as D. unfold denotes in *. rewrite app_length in *. cbn [length] in *. lia. }
  subst ax. rewrite Hs, without_app in S1. split; [exact S1|]. intros ix Hi. rewrite <- (S2 (ix ++ [Z.of_nat k])).
  - pose proof (inb_length _ _ Hi) as Li. rewrite <- Li, without_app. reflexivity.
  - rewrite Hs. apply inb_app; auto. lia.
  - pose proof (inb_length _ _ Hi) as Li. rewrite <- Li. apply nth_app_last.
Qed.
Lemma upd_app {T} (s : list T) x y : upd (length s) y (s ++ [x]) = s ++ [y].
Proof. induction s as [|z s IH]; [reflexivity|]. cbn. f_equal. exact IH. Qed.
Lemma concat_lines_units s (d : arr R) ix : inb s ix -> forall l k, (k < length l)%nat -> (forall a, In a l -> nth (length s) (shp a) 0%nat = 1%nat) ->
  concat_lines (length s) l d (ix ++ [Z.of_nat k]) = get (nth k l d) (ix ++ [0]).
Proof.
  intros Hi. pose proof (inb_length _ _ Hi) as Li. induction l as [|a l IH]; intros k Hk H; [cbn in Hk; lia|]. cbn [concat_lines].
  rewrite (H a (or_introl eq_refl)). rewrite <- Li at 1. rewrite nth_app_last. destruct k as [|k].
  - destruct (Z.ltb_spec (Z.of_nat 0) (Z.of_nat 1)); [reflexivity | lia].
  - destruct (Z.ltb_spec (Z.of_nat (S k)) (Z.of_nat 1)); [lia|]. rewrite <- Li at 2. rewrite <- Li at 2. rewrite upd_app, nth_app_last.
    replace (Z.of_nat (S k) - Z.of_nat 1) with (Z.of_nat k) by lia. cbn [nth]. apply IH; [cbn in Hk; lia | intros; apply H; right; auto].
Qed.
Lemma removelast_app_one {T} (l : list T) x : removelast (l ++ [x]) = l.
Proof. rewrite removelast_app by discriminate. cbn. apply app_nil_r. Qed.
Lemma stack_ok s (v : list gvar) : v <> [] -> (forall u, In u v -> shp (gdata (garray u)) = s) ->
  exists a, stack_aligned_field v = Ok a /\ shp a = s ++ [length v] /\ forall k ix, (k < length v)%nat -> inb s ix -> get a (ix ++ [Z.of_nat k]) = get (gdata (garray (nth k v dgv))) ix.
Proof.
  intros Hne Hs. unfold stack_aligned_field, concat_along_axis. set (l := map (fun x => expand_last (gdata (garray x))) v).
  assert (El : map (fun x => [expand_last (gdata (garray x))]) v = map (fun a => [a]) l) by (unfold l; rewrite map_map; reflexivity). rewrite El.
  assert (Ll : length l = length v) by apply map_length. destruct l as [|a0 l0] eqn:E0; [destruct v; [congruence | discriminate Ll]|]. rewrite <- E0 in *.
  assert (Em : map (fun a => [a]) l = [a0] :: map (fun a => [a]) l0) by (rewrite E0; reflexivity). rewrite Em. rewrite <- Em. clear Em.
  assert (F1 : forallb (fun t' : list (arr R) => (length t' =? length [a0])%nat) (map (fun a => [a]) l) = true).
  { apply forallb_forall. intros t Ht. apply in_map_iff in Ht. destruct Ht as (x & <- & _). reflexivity. }
  rewrite F1. cbn [length seq mapM]. rewrite (@mapM_Ok _ _ (leaf 0) (fun t => match t with a :: _ => a | [] => a0 end)) by (intros t Ht; apply in_map_iff in Ht; destruct Ht as (x & <- & _); reflexivity).
  cbn [bind]. rewrite map_map, map_id.
  assert (Sh : forall a, In a l -> shp a = s ++ [1%nat]) by (intros a Ha; unfold l in Ha; apply in_map_iff in Ha; destruct Ha as (u & <- & Hu); cbn [expand_last shp]; rewrite Hs by exact Hu; reflexivity).
  assert (Ec : concatenate l (-1) = Ok (mkarr (s ++ [length v]) (concat_lines (length s) l a0))).
  { unfold concatenate. rewrite E0. rewrite <- E0. pose proof (Sh a0 ltac:(rewrite E0; left; reflexivity)) as S0.
    unfold ndim at 1. rewrite S0. rewrite (denotes_norm (last_axis s 1%nat)). cbn [bind].
    match goal with |- context [forallb ?f l] => assert (Fb : forallb f l = true); [|rewrite Fb] end.
    2:{ f_equal. rewrite upd_app. f_equal. f_equal. f_equal. rewrite <- Ll. clear - Sh. induction l as [|a l IH]; [reflexivity|]. cbn [map fold_right length]. rewrite (Sh a (or_introl eq_refl)), nth_app_last. rewrite IH by (intros; apply Sh; right; auto). reflexivity. }
    apply forallb_forall. intros b Hb. unfold ndim. rewrite (Sh b Hb), S0, Nat.eqb_refl. cbn [andb]. apply forallb_forall. intros j _. rewrite Nat.eqb_refl. apply orb_true_r. }
  rewrite Ec. cbn [bind]. cbn [leaf nth_error]. eexists. split; [reflexivity|]. cbn [shp get]. split; [reflexivity|]. intros k ix Hk Hi.
  rewrite concat_lines_units; [|exact Hi | lia | intros a Ha; rewrite (Sh a Ha); apply nth_app_last].
  unfold l. rewrite (nth_map' _ _ dgv a0) by lia. cbn [expand_last get]. rewrite removelast_app_one. reflexivity.
Qed.
Lemma split_aligned_ok g (y : arr R) : (0 < gndim g)%nat -> shp y = gshape g ++ [gndim g] ->
  exists l, split_to_aligned_field g None y = Ok l /\ length l = gndim g /\
    forall k, (k < gndim g)%nat -> gbc (nth k l dgv) = periodic_bc (gndim g) /\
      is_field (garray (nth k l dgv)) g (nth k (cell_faces g) []) (fun ix => get y (ix ++ [Z.of_nat k])).
Proof.
  intros Hd Sa.
  destruct (@split_channels_ok (gshape g) (gndim g) y Sa Hd) as (xs & Ex & Lx & Hx).
  set (fs := cell_faces g). assert (Lf : length fs = gndim g) by (unfold fs, cell_faces; rewrite map_length, seq_length; reflexivity).
  destruct (@mapM_combine (arr R) (list Q * bcs) gvar (fun xob => mk_gvar (mkga (fst xob) (fst (snd xob)) g) (snd (snd xob)))
    (fun k u => u = mkgv (mkga (nth k xs (afull [] 0%R)) (nth k fs []) g) (periodic_bc (gndim g))) xs (combine fs (repeat (periodic_bc (gndim g)) (gndim g))) (afull [] 0%R) ([], periodic_bc (gndim g))) as (us & Eu & Lu & Hu).
  { rewrite combine_length, repeat_length. lia. }
  { intros k Hk. rewrite combine_nth by (rewrite repeat_length; lia). cbn [fst snd]. rewrite nth_repeat' by lia. eexists. split; [|reflexivity].
    unfold mk_gvar. cbn [ggrid]. cbn [periodic_bc homogeneous btypes]. rewrite ?repeat_length. unfold gndim. rewrite Nat.eqb_refl. reflexivity. }
  destruct (@mapM_combine gvar (list Q) gvar (fun xo => linear_interp (fst xo) (snd xo))
    (fun k u => u = mkgv (mkga (nth k xs (afull [] 0%R)) (nth k fs []) g) (periodic_bc (gndim g))) us fs dgv []) as (ls & El & Ll & Hl); [lia | |].
  { intros k Hk. cbn [fst snd]. rewrite (Hu k dgv) by lia. eexists. split; [|reflexivity]. unfold linear_interp. cbn [garray goff]. rewrite Nat.eqb_refl. cbn [negb].
    set (o := nth k fs []). set (w := mkgv (mkga (nth k xs (afull [] 0%R)) o g) (periodic_bc (gndim g))).
    assert (G : forall n s, (forall j, (j < n)%nat -> nth j (skipn s o) 0%Q = nth (s + j) o 0%Q) -> foldM (fun acc ao => linear_along_axis acc (snd ao) (fst ao)) w (combine (seq s n) (firstn n (skipn s o))) = Ok w).
    { induction n as [|n IH]; intros s Hn; [reflexivity|]. destruct (skipn s o) as [|q r] eqn:Er; [reflexivity|]. cbn [seq firstn combine foldM fst snd].
      assert (Eq : q = nth s o 0%Q) by (specialize (Hn 0%nat ltac:(lia)); cbn in Hn; rewrite Nat.add_0_r in Hn; exact Hn).
      assert (La : linear_along_axis w q s = Ok w) by (unfold linear_along_axis; cbv zeta; change (goff (garray w)) with o; rewrite <- Eq; destruct (Qeq_bool (q - q) 0) eqn:E0; [reflexivity | exfalso; apply Qeq_bool_neq in E0; apply E0; ring]). rewrite La. cbn [bind].
      assert (Sk : skipn (S s) o = r) by (exact (@skipn_cons _ _ _ _ _ Er)).
      rewrite <- Sk. apply IH. intros j Hj. rewrite Sk. specialize (Hn (S j) ltac:(lia)). cbn [nth] in Hn. rewrite Hn. f_equal. lia. }
    specialize (G (length o) 0%nat). cbn [skipn] in G. rewrite firstn_all in G. apply G. intros j _. reflexivity. }
  exists ls. split.
  - unfold split_to_aligned_field. rewrite Ex. cbn [bind]. fold fs. rewrite Eu. cbn [bind]. exact El.
  - split; [lia|]. intros k Hk. rewrite (Hl k dgv) by lia. split; [reflexivity|]. cbn [garray gbc]. destruct (Hx k (afull [] 0%R) Hk) as (Sk & Gk).
    split; [reflexivity|]. split; [apply off_eq_refl|]. split; [exact Sk|]. intros ix Hi. cbn [gdata]. apply Gk. exact Hi.
Qed.
(* @prop C62 Stacking fields into channels and splitting them again loses nothing: for any fields filling the grid, channel k of stack_aligned_field is field k, and split_to_aligned_field of the stack returns the same values at the cell faces with periodic boundary conditions. *)
Lemma stack_split_channels_lem : forall g v, wfg g -> (0 < gndim g)%nat -> length v = gndim g -> (forall u, In u v -> shp (gdata (garray u)) = gshape g) ->
  exists a l, stack_aligned_field v = Ok a /\ shp a = gshape g ++ [gndim g] /\
    (forall k ix, (k < gndim g)%nat -> inb (gshape g) ix -> get a (ix ++ [Z.of_nat k]) = get (gdata (garray (nth k v dgv))) ix) /\
    split_to_aligned_field g None a = Ok l /\ length l = gndim g /\
    forall k, (k < gndim g)%nat -> gbc (nth k l dgv) = periodic_bc (gndim g) /\
      is_field (garray (nth k l dgv)) g (nth k (cell_faces g) []) (get (gdata (garray (nth k v dgv)))).
Proof.
  intros g v Hw Hd HL Hs. destruct (@stack_ok (gshape g) v) as (a & Ea & Sa & Ga); [intros ->; cbn in HL; lia | exact Hs|]. rewrite HL in Sa. exists a.
  destruct (@split_aligned_ok g a Hd Sa) as (l & El & Ll & Hl). exists l. split; [exact Ea|]. split; [exact Sa|]. split; [intros k ix Hk; apply Ga; lia|]. split; [exact El|]. split; [exact Ll|].
  intros k Hk. destruct (Hl k Hk) as (B & P). split; [exact B|]. eapply prep_ext; [|exact P]. intros ix Hi. cbv beta. apply Ga; [lia | exact Hi].
Qed.
(* @ex *)
Lemma stack_split_channels_ex_lem : wfg p34g /\ (0 < gndim p34g)%nat /\ length p34v = gndim p34g /\ (forall u, In u p34v -> shp (gdata (garray u)) = gshape p34g).
Proof. split; [assert (H : (0 < gndim p34g)%nat) by (cbn; lia); exact (pv_wfg H p34_pv)|]. split; [cbn; lia|]. split; [reflexivity|]. intros u [<- |[<- | []]]; reflexivity. Qed.

(** ** Fluxes predicted by a network *)
Lemma nth_firstn_lt {T} n : forall (l : list T) i d, (i < n)%nat -> nth i (firstn n l) d = nth i l d.
Proof. induction n as [|n IH]; intros [|x l] [|i] d H; try lia; try reflexivity. cbn. apply IH. lia. Qed.
Lemma nth_skipn_add {T} n : forall (l : list T) i d, nth i (skipn n l) d = nth (n + i) l d.
Proof. induction n as [|n IH]; intros [|x l] i d; try reflexivity; [destruct i; reflexivity | cbn; apply IH]. Qed.
Lemma skipn_plus {T} n m : forall l : list T, skipn n (skipn m l) = skipn (m + n) l.
Proof. induction m as [|m IH]; intros [|x l]; try reflexivity; [cbn; apply skipn_nil | cbn; apply IH]. Qed.
Lemma In_firstn {T} n (l : list T) x : In x (firstn n l) -> In x l.
Proof. intros H. rewrite <- (firstn_skipn n l). apply in_or_app. auto. Qed.
Lemma In_skipn {T} n (l : list T) x : In x (skipn n l) -> In x l.
Proof. intros H. rewrite <- (firstn_skipn n l). apply in_or_app. auto. Qed.
Lemma face_nth g a j : (a < gndim g)%nat -> (j < gndim g)%nat -> nth j (nth a (cell_faces g) []) 0%Q = (((if (a =? j)%nat then 1 else 0) + 1) / 2)%Q.
Proof. intros Ha Hj. unfold cell_faces. rewrite nth_map_seq by auto. rewrite nth_map_seq by auto. reflexivity. Qed.
Lemma face_length g a : (a < gndim g)%nat -> length (nth a (cell_faces g) []) = gndim g.
Proof. intros Ha. unfold cell_faces. rewrite nth_map_seq by auto. rewrite map_length, seq_length. reflexivity. Qed.
Lemma shift_offset_length o i : length (shift_offset o i) = length o.
Proof. unfold shift_offset, enumerate. rewrite map_length, combine_length, seq_length. lia. Qed.
Lemma shift_offset_nth o i j : (j < length o)%nat -> nth j (shift_offset o i) 0%Q = (if (j =? i)%nat then nth j o 0%Q + (1 # 2) else nth j o 0%Q)%Q.
Proof.
  intros Hj. unfold shift_offset, enumerate. rewrite (nth_map' _ _ (0%nat, 0%Q) 0%Q) by (rewrite combine_length, seq_length; lia).
  rewrite combine_nth by apply seq_length. rewrite seq_nth by exact Hj. reflexivity.
Qed.
Lemma flux_offset_back g i a : (i < gndim g)%nat -> (a < gndim g)%nat -> off_eq (offs a (- 1 # 2) (shift_offset (nth a (cell_faces g) []) i)) (nth i (cell_faces g) []).
Proof.
  intros Hi Ha. apply off_eq_intro; rewrite offs_length, shift_offset_length, face_length by auto; [symmetry; apply face_length; auto|].
  intros j Hj. unfold offs. destruct (Nat.eq_dec j a) as [->|Hne].
  - rewrite nth_upd_same by (rewrite shift_offset_length, face_length by auto; auto). rewrite shift_offset_nth by (rewrite face_length by auto; auto). rewrite !face_nth by auto.
    rewrite Nat.eqb_refl. rewrite (Nat.eqb_sym i a). destruct (a =? i)%nat; reflexivity.
  - rewrite nth_upd_other by auto. rewrite shift_offset_nth by (rewrite face_length by auto; auto). rewrite !face_nth by auto.
    rewrite (Nat.eqb_sym i j). destruct (Nat.eqb_spec a j); [congruence|]. destruct (j =? i)%nat; reflexivity.
Qed.
Lemma flat_map_nth {T U} (f : T -> list U) n : forall (l : list T) i j d dt, (forall x, In x l -> length (f x) = n) -> (i < length l)%nat -> (j < n)%nat -> nth (i * n + j) (flat_map f l) d = nth j (f (nth i l dt)) d.
Proof.
  induction l as [|x l IH]; intros i j d dt Hn Hi Hj; [cbn in Hi; lia|]. cbn [flat_map]. destruct i as [|i].
  - cbn [Nat.mul plus nth]. rewrite app_nth1; [reflexivity | rewrite Hn by (left; reflexivity); exact Hj].
  - cbn [nth]. rewrite app_nth2; rewrite (Hn x) by (left; reflexivity); [|cbn; lia]. rewrite <- (IH i j d dt); [f_equal; cbn; lia | intros; apply Hn; right; auto | cbn in Hi; lia | exact Hj].
Qed.
Lemma flat_map_len {T U} (f : T -> list U) n : forall (l : list T), (forall x, In x l -> length (f x) = n) -> length (flat_map f l) = (length l * n)%nat.
Proof. induction l as [|x l IH]; intros H; [reflexivity|]. cbn [flat_map length]. rewrite app_length, IH by (intros; apply H; right; auto). rewrite H by (left; reflexivity). cbn. lia. Qed.
Lemma groups_nth {T} n : (0 < n)%nat -> forall count (l : list T) i m, (m <= count)%nat -> length l = (m * n)%nat -> (i < m)%nat -> nth_error (groups_of count n l) i = Some (firstn n (skipn (i * n) l)).
Proof.
  intros Hn. induction count as [|c IH]; intros l i m Hm Hl Hi; [lia|]. cbn [groups_of]. destruct (Nat.leb_spec n (length l)); [|nia]. destruct i as [|i]; [reflexivity|]. cbn [nth_error].
  rewrite (IH (skipn n l) i (m - 1)%nat); [|lia | rewrite skipn_length; nia | lia]. f_equal. f_equal.
  rewrite skipn_plus. f_equal.
Qed.
(* @prop C62 flux_corrector_network, for every network whose output has ndim^2 channels on the grid: it returns one field per velocity component, at that component's cell face and periodic, equal to minus the divergence of that component's ndim predicted fluxes (channels i*ndim .. i*ndim + ndim - 1), and the total of every component of the correction is zero: a flux correction cannot create momentum, whatever the network has learned. *)
Lemma flux_corrector_conserves_lem : forall g tower pre v x y, wfg g -> (0 < gndim g)%nat ->
  pre v = Ok x -> tower (gndim g * gndim g)%nat x = Ok y -> shp y = gshape g ++ [(gndim g * gndim g)%nat] ->
  exists l, flux_corrector_network g tower pre v = Ok l /\ length l = gndim g /\
    forall i u, nth_error l i = Some u -> gbc u = periodic_bc (gndim g) /\ total (gdata (garray u)) = 0%R /\
      is_field (garray u) g (nth i (cell_faces g) []) (fun ix => - nsum (gndim g) (fun a =>
        (get y (ix ++ [Z.of_nat (i * gndim g + a)]) - get y (wrap (gshape g) (prev a ix) ++ [Z.of_nat (i * gndim g + a)])) / hstep g a))%R.
Proof.
  intros g tower pre v x y Hw Hd Ep Et Sy. set (d := gndim g) in *.
  unfold flux_corrector_network, tower_module. rewrite Ep. cbn [bind]. fold d. rewrite Et. cbn [bind]. unfold aligned_field_from_split_divergence. fold d.
  destruct (@split_channels_ok (gshape g) (d * d)%nat y Sy ltac:(nia)) as (xs & Ex & Lx & Hx). rewrite Ex. cbn [bind].
  assert (Lfo : length (flux_offsets g) = (d * d)%nat).
  { unfold flux_offsets. rewrite (@flat_map_len _ _ _ d); [rewrite seq_length; reflexivity|]. intros i _. rewrite map_length. unfold cell_faces. rewrite map_length, seq_length. reflexivity. }
  assert (Nfo : forall i a, (i < d)%nat -> (a < d)%nat -> nth (i * d + a) (flux_offsets g) [] = shift_offset (nth a (cell_faces g) []) i).
  { intros i a Hi Ha. assert (Lc : length (cell_faces g) = d) by (unfold cell_faces; rewrite map_length, seq_length; reflexivity).
    unfold flux_offsets. rewrite (@flat_map_nth _ _ _ d _ _ _ _ 0%nat); [|intros z _; rewrite map_length; exact Lc | rewrite seq_length; exact Hi | exact Ha].
    rewrite (nth_map' _ _ [] []) by lia. rewrite seq_nth by exact Hi. reflexivity. }
  set (si := map (fun xo => mkga (fst xo) (snd xo) g) (combine xs (flux_offsets g))).
  assert (Ls : length si = (d * d)%nat) by (unfold si; rewrite map_length, combine_length; lia).
  assert (Ns : forall k, (k < d * d)%nat -> nth k si dga = mkga (nth k xs (afull [] 0%R)) (nth k (flux_offsets g) []) g).
  { intros k Hk. unfold si. rewrite (nth_map' _ _ (afull [] 0%R, []) dga) by (rewrite combine_length; lia). rewrite combine_nth by lia. reflexivity. }
  set (Fs := fun i a ix => get y (wrap (gshape g) ix ++ [Z.of_nat (i * d + a)])).
  assert (PF : forall i a, periodic (gshape g) (Fs i a)) by (intros i a ix Hix; unfold Fs; rewrite wrap_wrap by exact Hix; reflexivity).
  destruct (@mapM_seq garr (fun i => match nth_error (groups_of (length si) d si) i with None => Err EIndex | Some row => let* v := to_grid_variables g row in let* dv := divergence v in ga_neg dv end)
    (fun i w => prep g (nth i (cell_faces g) []) (fun ix => - divF g (Fs i) ix)%R w) d) as (field & Ef & Lf & Hf).
  { intros i Hi. rewrite (@groups_nth garr d Hd (length si) si i d); [|rewrite Ls; nia | exact Ls | exact Hi].
    set (row := firstn d (skipn (i * d) si)).
    assert (Lr : length row = d) by (unfold row; rewrite firstn_length, skipn_length, Ls; nia).
    assert (Nr : forall a, (a < d)%nat -> nth a row dga = nth (i * d + a) si dga) by (intros a Ha; unfold row; rewrite nth_firstn_lt by exact Ha; apply nth_skipn_add).
    unfold to_grid_variables. rewrite (@mapM_Ok _ _ _ (fun a => mkgv a (periodic_bc d))).
    2:{ intros a Ha. unfold mk_gvar. assert (Ga : ggrid a = g).
        { unfold row in Ha. apply In_firstn in Ha. apply In_skipn in Ha. unfold si in Ha. apply in_map_iff in Ha. destruct Ha as (z & <- & _). reflexivity. }
        rewrite Ga. cbn [periodic_bc homogeneous btypes]. rewrite repeat_length. fold d. rewrite Nat.eqb_refl. reflexivity. }
    cbn [bind].
    destruct (@div_prep g (nth i (cell_faces g) []) (fun a => shift_offset (nth a (cell_faces g) []) i) (Fs i) (map (fun a => mkgv a (periodic_bc d)) row)) as (w & Ew & Pw); [exact Hw | exact Hd | | |
      intros a Ha; split; [rewrite shift_offset_length; apply face_length; exact Ha | apply flux_offset_back; auto]|].
    - split; [rewrite map_length; exact Lr|]. intros a Ha. rewrite (nth_map' _ _ dga dgv) by (rewrite Lr; exact Ha). rewrite Nr by exact Ha. rewrite Ns by (fold d in Ha; nia). rewrite Nfo by auto.
      split; [|reflexivity]. cbn [garray]. destruct (Hx (i * d + a)%nat (afull [] 0%R) ltac:(fold d in Ha; nia)) as (Sk & Gk). split; [reflexivity|]. split; [apply off_eq_refl|]. split; [exact Sk|].
      intros ix Hix. cbn [gdata]. rewrite Gk by exact Hix. unfold Fs. rewrite wrap_inb by exact Hix. reflexivity.
    - intros a _. apply PF.
    - rewrite Ew. cbn [bind]. apply prep_neg. exact Pw. }
  rewrite Ef. cbn [bind]. unfold to_grid_variables. rewrite (@mapM_Ok _ _ _ (fun a => mkgv a (periodic_bc d))).
  2:{ intros a Ha. unfold mk_gvar. destruct (In_nth field a dga Ha) as (i & Hi & <-). rewrite (proj1 (Hf i dga ltac:(lia))). cbn [periodic_bc homogeneous btypes]. rewrite repeat_length. fold d. rewrite Nat.eqb_refl. reflexivity. }
  eexists. split; [reflexivity|]. split; [rewrite map_length; exact Lf|]. intros i u Hu. assert (Hi : (i < d)%nat) by (rewrite <- Lf, <- (map_length (fun a => mkgv a (periodic_bc d)) field); apply nth_error_Some; congruence).
  apply (nth_error_nth _ _ dgv) in Hu. rewrite (nth_map' _ _ dga dgv) in Hu by lia. subst u. cbn [gbc garray]. pose proof (Hf i dga Hi) as P. split; [reflexivity|]. split.
  - rewrite (total_prep P), asum_opp, sum_divF; [ring | apply Hw | intros; apply PF].
  - eapply prep_ext; [|exact P]. intros ix Hix. cbv beta. f_equal. unfold divF, bdF, Fs. apply nsum_ext. intros a Ha. rewrite (wrap_inb _ _ Hix). reflexivity.
Qed.

(* a network for the examples: combines the first input channel with the channel number *)
Definition toy_tower (g : grid) (n : nat) (x : arr R) : result (arr R) :=
  Ok (mkarr (gshape g ++ [n]) (fun ix => 2 * get x (upd (gndim g) 0%Z ix) + IZR (nth 0 ix 0%Z) * IZR (nth (gndim g) ix 0%Z))%R).
(* @ex *)
Lemma flux_corrector_conserves_ex_lem : exists x y, wfg p34g /\ (0 < gndim p34g)%nat /\ stack_aligned_field p34v = Ok x /\
  toy_tower p34g (gndim p34g * gndim p34g) x = Ok y /\ shp y = gshape p34g ++ [(gndim p34g * gndim p34g)%nat].
Proof.
  assert (H : (0 < gndim p34g)%nat) by (cbn; lia). destruct (@stack_ok (gshape p34g) p34v) as (a & Ea & _); [discriminate | intros u [<- |[<- | []]]; reflexivity|].
  exists a. eexists. split; [exact (pv_wfg H p34_pv)|]. split; [exact H|]. split; [exact Ea|]. split; reflexivity.
Qed.

(* @prop C62 velocity_corrector_network, for every network: on fields filling the grid it feeds the network one channel per component, in order, and channel k of the network's output becomes component k of the correction, at the k-th cell face and periodic. *)
Lemma velocity_corrector_channels_lem : forall g tower v y, (0 < gndim g)%nat -> v <> [] -> (forall u, In u v -> shp (gdata (garray u)) = gshape g) ->
  (forall x, shp x = gshape g ++ [length v] ->
     (forall k ix, (k < length v)%nat -> inb (gshape g) ix -> get x (ix ++ [Z.of_nat k]) = get (gdata (garray (nth k v dgv))) ix) ->
     tower (gndim g) x = Ok y) -> shp y = gshape g ++ [gndim g] ->
  exists l, velocity_corrector_network g tower v = Ok l /\ length l = gndim g /\
    forall k u, nth_error l k = Some u -> gbc u = periodic_bc (gndim g) /\
      is_field (garray u) g (nth k (cell_faces g) []) (fun ix => get y (ix ++ [Z.of_nat k])).
Proof.
  intros g tower v y Hd Hv Hs Ht Sy. destruct (@stack_ok (gshape g) v) as (a & Ea & Sa & Ga); [exact Hv | exact Hs|].
  destruct (@split_aligned_ok g y Hd Sy) as (l & El & Ll & Hl). exists l. split; [|split; [exact Ll|]].
  - unfold velocity_corrector_network, tower_module. rewrite Ea. cbn [bind]. rewrite (Ht a Sa Ga). cbn [bind]. exact El.
  - intros k u Hu. assert (Hk : (k < gndim g)%nat) by (rewrite <- Ll; apply nth_error_Some; congruence). specialize (Hl k Hk). rewrite (nth_error_nth _ _ _ Hu) in Hl. exact Hl.
Qed.
(* @ex *)
Lemma velocity_corrector_channels_ex_lem : exists (tower : nat -> arr R -> result (arr R)) y, (0 < gndim p34g)%nat /\ p34v <> [] /\ (forall u, In u p34v -> shp (gdata (garray u)) = gshape p34g) /\
  (forall x, shp x = gshape p34g ++ [length p34v] ->
     (forall k ix, (k < length p34v)%nat -> inb (gshape p34g) ix -> get x (ix ++ [Z.of_nat k]) = get (gdata (garray (nth k p34v dgv))) ix) ->
     tower (gndim p34g) x = Ok y) /\ shp y = gshape p34g ++ [gndim p34g].
Proof.
  exists (fun n x => Ok (afull (shp x) (get x [0; 0; 0]%Z))), (afull [3%nat; 4%nat; 2%nat] 1%R). split; [cbn; lia|]. split; [discriminate|]. split; [intros u [<- |[<- | []]]; reflexivity|]. split; [|reflexivity].
  intros x Sx Gx. rewrite Sx. specialize (Gx 0%nat [0; 0]%Z). cbn [app] in Gx. change (Z.of_nat 0) with 0%Z in Gx. rewrite Gx; [reflexivity | cbn; lia | cbn; lia].
Qed.
