(** * C20: the 1-d Laplacian matrices act like the finite-difference Laplacian *)
From Verif Require Import Prelude NdArr Grids_model Spec SpecLin LinAlg Boundaries_model BoundariesPeriodic WallBC FD_model PRep FDProofs FDProps WallBCProps ImposeProps WallFD WallFDProps Laplacian_model LaplacianProofs FastDiagProofs PressureProps.
Set Implicit Arguments.
Local Open Scope Z_scope.

Lemma nth_of {A} (l : list A) a x d : nth_error l a = Some x -> nth a l d = x.
Proof. intros H. apply nth_error_nth with (d := d) in H. exact H. Qed.
Lemma lap_adapt (t : bctype) h up M : DN t ->
  (if isNeu t then lap_boundary 1 h up M else if isDir t then lap_boundary (-1) h up M else M) = lap_boundary (sgn t) h up M.
Proof. intros [-> | ->]; reflexivity. Qed.
Lemma tri_sym n h s1 s2 i j : tri n h s1 s2 i j = tri n h s1 s2 j i.
Proof. unfold tri, dl. dcase; try ring. Qed.

Section Axis.
Variables (u : garr) (b : bcs) (a : nat).
Let g := ggrid u.
Let n := nth a (gshape g) 0%nat.
Let h := hstep g a.
Hypothesis (Hu : wf_garr u) (Ha : (a < gndim g)%nat) (Hax : homogeneous_axis b u a).
Hypothesis (Hn : (2 <= n)%nat) (Hn3 : edge_side b (goff u) a = None -> (3 <= n)%nat).
Let Hh : h <> 0%R.
Proof. destruct Hu as ((HL & _ & _ & H) & _). fold g in H, HL. rewrite Forall_forall in H. apply H. apply nth_In. lia. Qed.
Lemma lap_axis_spec M : laplacian_matrix n h = Ok M ->
  exists L, lap_axis (nth a (gstep g) 0%R) (nth a (goff u) 0%Q) (btype b a) M = Ok L /\
    shp L = [inner_size g b (goff u) a; inner_size g b (goff u) a] /\
    (forall i j, 0 <= i < Z.of_nat (inner_size g b (goff u) a) -> 0 <= j < Z.of_nat (inner_size g b (goff u) a) -> get L [i; j] = get L [j; i]) /\
    forall ix, inb (gshape g) ix -> inner_start b (goff u) a <= nth a ix 0 < inner_start b (goff u) a + Z.of_nat (inner_size g b (goff u) a) ->
      rsum (inner_size g b (goff u) a) (fun j => get L [(nth a ix 0 - inner_start b (goff u) a)%Z; j] * get (gdata u) (upd a (j + inner_start b (goff u) a)%Z ix))%R
      = second_difference b u a ix.
Proof.
  intros EM. pose proof EM as EM'. unfold laplacian_matrix in EM'. destruct (Nat.ltb_spec n 2); [lia|]. injection EM' as EM'.
  fold (hstep g a). fold h. unfold lap_axis, btype, inner_size, inner_start, second_difference. fold g. fold n. fold h.
  assert (HS : forall ix, inb (gshape g) ix -> get (gdata u) ix = get (gdata u) (upd a (nth a ix 0) ix)) by (intros; rewrite upd_nth_same; reflexivity).
  destruct Hax as [Hp | [(Hcen & t1 & t2 & (x1 & y1 & T1 & V1) & (x2 & y2 & T2 & V2) & D1 & D2) | (He & HV)]].
  - (* periodic *)
    unfold periodic_axis in Hp. rewrite (nth_of _ _ _ Hp). cbn [fst snd]. change (isNeu Periodic) with false. change (isDir Periodic) with false. cbn [andb orb].
    assert (He : edge_side b (goff u) a = None) by (unfold edge_side; rewrite Hp; reflexivity). rewrite He. specialize (Hn3 He).
    exists M. split; [destruct (isclose _ _); destruct (isclose _ _); reflexivity|]. rewrite <- EM'. split; [reflexivity|]. split.
    { intros i j Hi Hj. cbn [get nth]. unfold lap_column. rewrite !mod_range by lia. destruct (Z.ltb_spec i j); destruct (Z.ltb_spec j i); try lia; dcase; reflexivity. }
    intros ix Hix Hi. cbn [get nth]. rewrite Z.sub_0_r.
    rewrite (@rsum_ext n _ (fun j => lap_column n h ((nth a ix 0 - j) mod Z.of_nat n)%Z * get (gdata u) (upd a j ix))%R) by (intros; rewrite Z.add_0_r; reflexivity).
    rewrite (@rsum_periodic n h (nth a ix 0) (fun j => get (gdata u) (upd a j ix))) by (auto; lia).
    unfold nbr. rewrite (nth_of _ _ _ Hp). destruct (nth a (bvals b) (None, None)) as (v1, v2).
    fold g. fold n. rewrite <- (HS ix Hix). replace (nth a ix 0 + -1) with (nth a ix 0 - 1) by lia. reflexivity.
  - (* cell centred *)
    rewrite T1 in T2. injection T2 as <- ->. rewrite V1 in V2. injection V2 as <- ->. rewrite (nth_of _ _ _ T1). cbn [fst snd].
    assert (He : edge_side b (goff u) a = None) by (apply edge_not_half; exact Hcen). rewrite He. specialize (Hn3 He). unfold centred in Hcen.
    assert (Hc1 : isclose (nth a (goff u) 0%Q) (1 # 2) = true).
    { rewrite Hcen. reflexivity. }
    assert (Hc2 : isclose (mod1 (nth a (goff u) 0%Q)) 0 = false) by (apply (@half_not_int _ 0); rewrite Hcen; reflexivity).
    rewrite Hc1, Hc2. rewrite (@lap_adapt t1), (@lap_adapt t2) by auto.
    eexists. split; [reflexivity|]. split; [rewrite <- EM'; reflexivity|]. split.
    { intros i j Hi Hj. rewrite !(@wall_entries n h t1 t2) by auto. rewrite tri_sym. reflexivity. }
    intros ix Hix Hi. rewrite Z.sub_0_r.
    rewrite (@rsum_ext n _ (fun j => tri n h (sgn t1) (sgn t2) (nth a ix 0%Z) j / h ^ 2 * get (gdata u) (upd a j ix))%R).
    2:{ intros j Hj. rewrite (@wall_entries n h t1 t2) by (auto; lia). rewrite Z.add_0_r. reflexivity. }
    rewrite (@rsum_tri n h (sgn t1) (sgn t2) (nth a ix 0) (fun j => get (gdata u) (upd a j ix))) by (auto; lia).
    unfold nbr. rewrite (nth_of _ _ _ T1), (nth_of _ _ _ V1), He. fold g. fold n. fold h. rewrite <- (HS ix Hix).
    f_equal. f_equal; [f_equal|].
    + destruct (Z.eqb_spec (nth a ix 0) (Z.of_nat n - 1)) as [E|E].
      * destruct (Z.ltb_spec (nth a ix 0 + 1) 0); [lia|]. destruct (Z.leb_spec (Z.of_nat n) (nth a ix 0 + 1)); [|lia].
        rewrite <- E, <- (HS ix Hix). destruct D1 as [-> | ->]; destruct D2 as [-> | ->]; cbn; ring.
      * destruct (Z.ltb_spec (nth a ix 0 + 1) 0); [lia|]. destruct (Z.leb_spec (Z.of_nat n) (nth a ix 0 + 1)); [lia|].
        destruct D1 as [-> | ->]; destruct D2 as [-> | ->]; reflexivity.
    + destruct (Z.eqb_spec (nth a ix 0) 0) as [E|E].
      * destruct (Z.ltb_spec (nth a ix 0 + -1) 0); [|lia]. replace (get (gdata u) (upd a 0 ix)) with (get (gdata u) ix) by (rewrite (HS ix Hix), E at 1; reflexivity).
        destruct D1 as [-> | ->]; destruct D2 as [-> | ->]; cbn; ring.
      * destruct (Z.ltb_spec (nth a ix 0 + -1) 0); [lia|]. destruct (Z.leb_spec (Z.of_nat n) (nth a ix 0 + -1)); [lia|].
        replace (nth a ix 0 + -1) with (nth a ix 0 - 1) by lia. destruct D1 as [-> | ->]; destruct D2 as [-> | ->]; reflexivity.
  - (* edge aligned *)
    destruct (edge_side b (goff u) a) as [[top v]|] eqn:Ee; [|congruence].
    assert (HT : nth_error (btypes b) a = Some (Dirichlet, Dirichlet) /\ (nth a (goff u) 0%Q == (if top then 1 else 0))%Q /\ v = 0%R).
    { unfold edge_side in Ee. destruct (nth_error (btypes b) a) as [[[] []]|]; try discriminate. rewrite HV in Ee.
      destruct (Qeq_bool (nth a (goff u) 0%Q) 1) eqn:E1; [injection Ee as <- <-; apply Qeq_bool_iff in E1; auto|].
      destruct (Qeq_bool (nth a (goff u) 0%Q) 0) eqn:E2; [injection Ee as <- <-; apply Qeq_bool_iff in E2; auto | discriminate]. }
    destruct HT as (HT & Ho & Hv0). subst v. rewrite (nth_of _ _ _ HT). cbn [fst snd].
    assert (Hc1 : isclose (nth a (goff u) 0%Q) (1 # 2) = false).
    { rewrite Ho. destruct top; reflexivity. }
    assert (Hc2 : isclose (mod1 (nth a (goff u) 0%Q)) 0 = true) by (apply (@int_isclose _ (if top then 1 else 0)); rewrite Ho; destruct top; reflexivity).
    rewrite Hc1, Hc2. change (isDir Dirichlet) with true. cbn [andb].
    exists (mcut M). split; [reflexivity|]. rewrite <- EM'. cbn [mcut shp get map]. split; [reflexivity|].
    assert (Hent : forall i j, 0 <= i < Z.of_nat (n - 1) -> 0 <= j < Z.of_nat (n - 1) -> lap_column n h ((i - j) mod Z.of_nat n) = (tri (n - 1) h 0 0 i j / h ^ 2)%R).
    { intros i j Hi Hj. rewrite mod_range by lia. unfold lap_column, tri, dl. destruct (Z.ltb_spec i j); dcase; field; auto. }
    split.
    { intros i j Hi Hj. cbn [nth]. rewrite !Hent by auto. rewrite tri_sym. reflexivity. }
    intros ix Hix Hi. cbn [nth]. set (st := if top then 0 else 1) in *.
    assert (Est : match top with true => 0 | false => 1 end = st) by reflexivity.
    replace (if top then 0 else 1) with st in Hi by reflexivity.
    rewrite (@rsum_ext (n - 1) _ (fun j => tri (n - 1) h 0 0 (nth a ix 0 - st)%Z j / h ^ 2 * get (gdata u) (upd a (j + st)%Z ix))%R).
    2:{ intros j Hj. fold st. rewrite Hent by (auto; lia). reflexivity. }
    rewrite (@rsum_tri (n - 1) h 0 0 (nth a ix 0 - st) (fun j => get (gdata u) (upd a (j + st) ix))) by (auto; lia).
    unfold nbr. rewrite (nth_of _ _ _ HT), (nth_of _ _ _ HV), Ee. fold g. fold n.
    replace (nth a ix 0 - st + st) with (nth a ix 0) by lia. rewrite <- (HS ix Hix). fold st.
    f_equal. f_equal; [f_equal|].
    + destruct (Z.eqb_spec (nth a ix 0 - st) (Z.of_nat (n - 1) - 1)) as [E|E].
      * assert (HE1 : (nth a ix 0 + 1 <? st) = false) by (apply Z.ltb_ge; lia).
        assert (HE2 : ((if top then Z.of_nat n - 1 else Z.of_nat n) <=? nth a ix 0 + 1) = true) by (apply Z.leb_le; unfold st in *; destruct top; lia).
        rewrite HE1, HE2. ring.
      * assert (HE1 : (nth a ix 0 + 1 <? st) = false) by (apply Z.ltb_ge; lia).
        assert (HE2 : ((if top then Z.of_nat n - 1 else Z.of_nat n) <=? nth a ix 0 + 1) = false) by (apply Z.leb_gt; unfold st in *; destruct top; lia).
        rewrite HE1, HE2. replace (nth a ix 0 - st + 1 + st) with (nth a ix 0 + 1) by lia. reflexivity.
    + destruct (Z.eqb_spec (nth a ix 0 - st) 0) as [E|E].
      * assert (HE1 : (nth a ix 0 + -1 <? st) = true) by (apply Z.ltb_lt; lia). rewrite HE1. ring.
      * assert (HE1 : (nth a ix 0 + -1 <? st) = false) by (apply Z.ltb_ge; lia).
        assert (HE2 : ((if top then Z.of_nat n - 1 else Z.of_nat n) <=? nth a ix 0 + -1) = false) by (apply Z.leb_gt; unfold st in *; destruct top; lia).
        rewrite HE1, HE2. replace (nth a ix 0 - st - 1 + st) with (nth a ix 0 + -1) by lia. reflexivity.
Qed.
End Axis.


Lemma lap_first u : wfg (ggrid u) -> (forall a, (a < gndim (ggrid u))%nat -> (2 <= nth a (gshape (ggrid u)) 0)%nat) ->
  exists Ms, mapM (fun nh => laplacian_matrix (fst nh) (snd nh)) (combine (gshape (ggrid u)) (gstep (ggrid u))) = Ok Ms /\
    forall a, (a < gndim (ggrid u))%nat -> laplacian_matrix (nth a (gshape (ggrid u)) 0%nat) (hstep (ggrid u) a) = Ok (nth a Ms (afull [] 0%R)).
Proof.
  intros (HL & _) Hn. set (g := ggrid u) in *.
  assert (E : forall a, (a < gndim g)%nat -> laplacian_matrix (nth a (gshape g) 0%nat) (hstep g a) =
     Ok (mkarr [nth a (gshape g) 0%nat; nth a (gshape g) 0%nat] (fun ix => lap_column (nth a (gshape g) 0%nat) (hstep g a) ((nth 0 ix 0 - nth 1 ix 0) mod Z.of_nat (nth a (gshape g) 0%nat))))).
  { intros a Ha. unfold laplacian_matrix. specialize (Hn a Ha). destruct (Nat.ltb_spec (nth a (gshape g) 0%nat) 2); [lia | reflexivity]. }
  eexists. split.
  - apply mapM_Ok with (g := fun nh => mkarr [fst nh; fst nh] (fun ix => lap_column (fst nh) (snd nh) ((nth 0 ix 0 - nth 1 ix 0) mod Z.of_nat (fst nh)))).
    intros x Hx. destruct (In_nth _ _ (0%nat, 0%R) Hx) as (a & Ha & <-). rewrite combine_length, HL, Nat.min_id in Ha.
    rewrite combine_nth by auto. cbn [fst snd]. apply E. exact Ha.
  - intros a Ha. rewrite (@nth_map' _ _ _ _ a (0%nat, 0%R)) by (rewrite combine_length, HL, Nat.min_id; exact Ha).
    rewrite combine_nth by auto. cbn [fst snd]. apply E. exact Ha.
Qed.

(* @prop C20 The 1-d Laplacian matrices of a grid with homogeneous boundary conditions exist, are square and symmetric, and each acts along its axis as the second difference quotient with those boundary conditions (periodic, cell-centred Dirichlet/Neumann in any combination, edge-aligned Dirichlet). *)
Lemma laplacian_matrices_axis_lem : forall u b,
  wf_garr u ->
  (forall a, (a < gndim (ggrid u))%nat -> homogeneous_axis b u a /\ enough_cells (ggrid u) b (goff u) a) ->
  exists Ls, laplacian_matrix_w_boundaries (ggrid u) (goff u) b = Ok Ls /\ length Ls = gndim (ggrid u) /\
    forall a, (a < gndim (ggrid u))%nat ->
      let L := nth a Ls (afull [] 0%R) in
      let m := inner_size (ggrid u) b (goff u) a in
      let st := inner_start b (goff u) a in
      shp L = [m; m] /\
      (forall i j, 0 <= i < Z.of_nat m -> 0 <= j < Z.of_nat m -> get L [i; j] = get L [j; i]) /\
      forall ix, inb (gshape (ggrid u)) ix -> st <= nth a ix 0 < st + Z.of_nat m ->
        rsum m (fun j => get L [(nth a ix 0 - st)%Z; j] * get (gdata u) (upd a (j + st)%Z ix))%R = second_difference b u a ix.
Proof.
  intros u b Hu H. unfold laplacian_matrix_w_boundaries.
  destruct (@lap_first u (proj1 Hu)) as (Ms & E & HM). { intros a Ha. apply (H a Ha). }
  rewrite E. cbn [bind].
  destruct (@mapM_seq _ (fun ax => lap_axis (nth ax (gstep (ggrid u)) 0%R) (nth ax (goff u) 0%Q) (btype b ax) (nth ax Ms (afull [] 0%R)))
     (fun a L => let m := inner_size (ggrid u) b (goff u) a in let st := inner_start b (goff u) a in
      shp L = [m; m] /\
      (forall i j, 0 <= i < Z.of_nat m -> 0 <= j < Z.of_nat m -> get L [i; j] = get L [j; i]) /\
      forall ix, inb (gshape (ggrid u)) ix -> st <= nth a ix 0 < st + Z.of_nat m ->
        rsum m (fun j => get L [(nth a ix 0 - st)%Z; j] * get (gdata u) (upd a (j + st)%Z ix))%R = second_difference b u a ix)
     (gndim (ggrid u))) as (Ls & EL & HLL & HL).
  { intros a Ha. destruct (H a Ha) as (Hh & H2 & H3). destruct (@lap_axis_spec u b a Hu Ha Hh H2 H3 _ (HM a Ha)) as (L & EL & P).
    exists L. split; [exact EL | exact P]. }
  exists Ls. split; [exact EL|]. split; [exact HLL|]. intros a Ha. apply (HL a (afull [] 0%R) Ha).
Qed.

Lemma homogeneous_walled b u a : homogeneous_axis b u a -> walled_axis b u a.
Proof.
  intros [H | [(H & t1 & t2 & A & B & C & D) | (H & _)]]; [left; auto | right; left; split; auto; exists t1, 0%R, t2, 0%R; auto | right; right; auto].
Qed.
(* @prop C20 On every cell that is not on a wall, the sum over the axes of these matrices applied to the data of a variable is exactly the value of the finite-difference laplacian of that variable. *)
Lemma laplacian_matrices_are_fd_laplacian_lem : forall u,
  let g := ggrid (garray u) in let o := goff (garray u) in let b := gbc u in
  wf_garr (garray u) ->
  (forall a, (a < gndim g)%nat -> homogeneous_axis b (garray u) a /\ enough_cells g b o a) ->
  exists Ls w, laplacian_matrix_w_boundaries g o b = Ok Ls /\ laplacian u = Ok w /\
    forall ix, inb (gshape g) ix ->
      (forall a, (a < gndim g)%nat -> inner_start b o a <= nth a ix 0 < inner_start b o a + Z.of_nat (inner_size g b o a)) ->
      nsum (gndim g) (fun a => rsum (inner_size g b o a)
         (fun j => get (nth a Ls (afull [] 0)) [(nth a ix 0 - inner_start b o a)%Z; j]
                   * get (gdata (garray u)) (upd a (j + inner_start b o a)%Z ix)))%R
      = get (gdata w) ix.
Proof.
  intros u g o b Hu H.
  destruct (@laplacian_matrices_axis_lem (garray u) b Hu H) as (Ls & EL & HLL & HL).
  destruct (@laplacian_with_walls_lem u Hu) as (w & Ew & Hw). { intros a Ha. apply homogeneous_walled. apply (H a Ha). }
  exists Ls, w. split; [exact EL|]. split; [exact Ew|]. intros ix Hix Hin.
  destruct Hw as (_ & _ & _ & Hw). rewrite (Hw ix Hix). apply nsum_ext. intros a Ha.
  destruct (HL a Ha) as (_ & _ & Hs). apply Hs; auto.
Qed.

(** Example: a 4 x 3 grid, periodic first axis, Dirichlet below and Neumann above on the second. *)
Definition lpg : grid := mkgrid [4%nat; 3%nat] [1%R; (1/2)%R] [(0%R, 4%R); (0%R, (3/2)%R)].
Definition lpu : garr := mkga (mkarr [4%nat; 3%nat] (fun ix => IZR (nth 0 ix 0 * 10 + nth 1 ix 0))) [(1 # 2)%Q; (1 # 2)%Q] lpg.
Definition lpb : bcs := constant_bc [(Periodic, Periodic); (Dirichlet, Neumann)] [(None, None); (Some 0%R, Some 0%R)].
Lemma lpu_wf : wf_garr lpu.
Proof. repeat split; repeat constructor; (lia || lra). Qed.
Lemma lpu_axes : forall a, (a < gndim (ggrid lpu))%nat -> homogeneous_axis lpb lpu a /\ enough_cells (ggrid lpu) lpb (goff lpu) a.
Proof.
  intros [|[|a]] Ha; [| | unfold gndim in Ha; simpl in Ha; lia]; (split; [|split; [|intros _]; simpl; lia]).
  - left. reflexivity.
  - right; left. split; [reflexivity|]. exists Dirichlet, Neumann. split; [exists Neumann, (Some 0%R); split; reflexivity|].
    split; [exists Dirichlet, (Some 0%R); split; reflexivity|]. auto.
Qed.
(* @ex *)
Lemma laplacian_matrices_axis_ex_lem : wf_garr lpu /\
  (forall a, (a < gndim (ggrid lpu))%nat -> homogeneous_axis lpb lpu a /\ enough_cells (ggrid lpu) lpb (goff lpu) a).
Proof. split; [apply lpu_wf | apply lpu_axes]. Qed.
(** Example: edge-aligned along the first axis. *)
Definition lpe : garr := mkga (gdata lpu) [1%Q; (1 # 2)%Q] lpg.
Definition lpbe : bcs := constant_bc [(Dirichlet, Dirichlet); (Dirichlet, Neumann)] [(Some 0%R, Some 0%R); (Some 0%R, Some 0%R)].
(* @ex *)
Lemma laplacian_matrices_are_fd_laplacian_ex_lem :
  let u := mkgv lpe lpbe in
  wf_garr (garray u) /\
  (forall a, (a < gndim lpg)%nat -> homogeneous_axis lpbe lpe a /\ enough_cells lpg lpbe (goff lpe) a) /\
  inner_start lpbe (goff lpe) 0 = 0 /\ inner_size lpg lpbe (goff lpe) 0 = 3%nat.
Proof.
  split; [repeat split; repeat constructor; (lia || lra)|]. split; [|split; reflexivity].
  intros [|[|a]] Ha; [| | unfold gndim in Ha; simpl in Ha; lia]; (split; [|split; [|intros _]; simpl; lia]).
  - right; right. split; [discriminate | reflexivity].
  - right; left. split; [reflexivity|]. exists Dirichlet, Neumann. split; [exists Neumann, (Some 0%R); split; reflexivity|].
    split; [exists Dirichlet, (Some 0%R); split; reflexivity|]. auto.
Qed.

(* @prop C20 With only 2 cells on a periodic axis the claim fails: the matrix entry coupling the two cells is 1/h^2, although each is both the left and the right neighbour of the other, so on the data (0, 1) the matrix gives 1/h^2 where the finite-difference laplacian gives 2/h^2. *)
Lemma laplacian_matrix_size_two_refuted_lem : forall h : R, h <> 0%R ->
  let g := mkgrid [2%nat] [h] [(0%R, (2 * h)%R)] in
  let b := constant_bc [(Periodic, Periodic)] [(None, None)] in
  let u := mkgv (mkga (mkarr [2%nat] (fun ix => IZR (nth 0 ix 0))) [(1 # 2)%Q] g) b in
  exists L w, laplacian_matrix_w_boundaries g [(1 # 2)%Q] b = Ok [L] /\ laplacian u = Ok w /\
    rsum 2 (fun j => get L [0%Z; j] * get (gdata (garray u)) [j])%R = (1 / h ^ 2)%R /\
    get (gdata w) [0] = (2 / h ^ 2)%R.
Proof.
  intros h Hh g b u.
  destruct (@laplacian_with_walls_lem u) as (w & Ew & Hw).
  { repeat split; repeat constructor; auto. }
  { intros [|a] Ha; [left; reflexivity | unfold gndim in Ha; simpl in Ha; lia]. }
  eexists. exists w. split; [reflexivity|]. split; [exact Ew|]. split.
  - cbn. unfold lap_column. cbn. field. auto.
  - destruct Hw as (_ & _ & _ & Hw). rewrite (Hw [0]). 2:{ cbn. repeat constructor; lia. }
    cbn. unfold hstep. cbn. field. auto.
Qed.
(* @prop C20 With 2 cells between walls the claim fails too: both off-diagonal entries are overwritten by 0, so the two cells are decoupled although they are neighbours. *)
Lemma laplacian_matrix_two_cells_decoupled_refuted_lem : forall (h : R) t1 t2, h <> 0%R ->
  (t1 = Dirichlet \/ t1 = Neumann) -> (t2 = Dirichlet \/ t2 = Neumann) ->
  let g := mkgrid [2%nat] [h] [(0%R, (2 * h)%R)] in
  let b := constant_bc [(t1, t2)] [(Some 0%R, Some 0%R)] in
  let u := mkgv (mkga (mkarr [2%nat] (fun ix => IZR (nth 0 ix 0))) [(1 # 2)%Q] g) b in
  exists L w, laplacian_matrix_w_boundaries g [(1 # 2)%Q] b = Ok [L] /\ laplacian u = Ok w /\
    get L [0; 1] = 0%R /\ get L [1; 0] = 0%R /\
    rsum 2 (fun j => get L [0%Z; j] * get (gdata (garray u)) [j])%R = 0%R /\
    get (gdata w) [0] = (1 / h ^ 2)%R.
Proof.
  intros h t1 t2 Hh H1 H2 g b u.
  destruct (@laplacian_with_walls_lem u) as (w & Ew & Hw).
  { repeat split; repeat constructor; auto. }
  { intros [|a] Ha; [|unfold gndim in Ha; simpl in Ha; lia]. right; left. split; [reflexivity|].
    exists t1, 0%R, t2, 0%R. split; [exists t2, (Some 0%R); split; reflexivity|]. split; [exists t1, (Some 0%R); split; reflexivity|]. auto. }
  assert (Hw0 : get (gdata w) [0] = (1 / h ^ 2)%R).
  { destruct Hw as (_ & _ & _ & Hw). rewrite (Hw [0]). 2:{ cbn. repeat constructor; lia. }
    destruct H1 as [-> | ->]; destruct H2 as [-> | ->]; cbn; unfold hstep; cbn; field; auto. }
  destruct H1 as [-> | ->]; destruct H2 as [-> | ->]; (eexists; exists w; split; [reflexivity|]; split; [exact Ew|]; split; [reflexivity|]; split; [reflexivity|]; split; [|exact Hw0]; cbn; ring).
Qed.
(* @prop C20 What is refused: an axis with fewer than 2 cells raises an index error, and edge-aligned data with a Neumann wall raises not-implemented. *)
Lemma laplacian_matrix_errors_lem : forall g o b,
  length (gstep g) = gndim g ->
  ((exists a, (a < gndim g)%nat /\ (nth a (gshape g) 0 < 2)%nat) ->
     laplacian_matrix_w_boundaries g o b = Err EIndex) /\
  ((forall a, (a < gndim g)%nat -> (2 <= nth a (gshape g) 0)%nat) ->
   (exists a t1 t2 z, (a < gndim g)%nat /\ nth_error (btypes b) a = Some (t1, t2) /\ (t1 = Neumann \/ t2 = Neumann) /\ (nth a o 0 == inject_Z z)%Q) ->
     laplacian_matrix_w_boundaries g o b = Err ENotImpl).
Proof.
  intros g o b HL. split.
  - intros (a & Ha & Hn). unfold laplacian_matrix_w_boundaries.
    assert (E : mapM (fun nh => laplacian_matrix (fst nh) (snd nh)) (combine (gshape g) (gstep g)) = Err EIndex); [|rewrite E; reflexivity].
    unfold gndim in *. clear b o. revert a Ha Hn HL. generalize (gstep g). induction (gshape g) as [|n s IH]; intros [|h hs] a Ha Hn HL; cbn [length] in *; try lia.
    cbn [combine mapM fst snd]. unfold laplacian_matrix at 1. destruct (Nat.ltb_spec n 2); [reflexivity|]. cbn [bind].
    destruct a as [|a]; cbn [nth] in Hn; [lia|]. rewrite (IH hs a); [reflexivity | lia | auto | lia].
  - intros H2 (a & t1 & t2 & z & Ha & Ht & HN & Ho). unfold laplacian_matrix_w_boundaries.
    assert (E : exists Ms, mapM (fun nh => laplacian_matrix (fst nh) (snd nh)) (combine (gshape g) (gstep g)) = Ok Ms).
    { eexists. apply mapM_Ok with (g := fun nh => mkarr [fst nh; fst nh] (fun ix => lap_column (fst nh) (snd nh) ((nth 0 ix 0 - nth 1 ix 0) mod Z.of_nat (fst nh)))).
      intros x Hx. destruct (In_nth _ _ (0%nat, 0%R) Hx) as (c & Hc & <-). rewrite combine_length, HL, Nat.min_id in Hc.
      rewrite combine_nth by auto. cbn [fst snd]. unfold laplacian_matrix. specialize (H2 c Hc). destruct (Nat.ltb_spec (nth c (gshape g) 0%nat) 2); [lia | reflexivity]. }
    destruct E as (Ms & ->). cbn [bind].
    assert (Hany : forall h oo t M, lap_axis h oo t M = Err ENotImpl \/ exists L, lap_axis h oo t M = Ok L).
    { intros. unfold lap_axis. destruct (isclose (mod1 oo) 0); [|right; eauto]. destruct (_ && _); [right; eauto|]. destruct (_ || _); [left; auto | right; eauto]. }
    assert (Hbad : forall M, lap_axis (nth a (gstep g) 0%R) (nth a o 0%Q) (btype b a) M = Err ENotImpl).
    { intros M. unfold lap_axis, btype. rewrite (@nth_of _ _ _ _ (BCOther, BCOther) Ht). cbn [fst snd]. rewrite (@int_isclose _ z Ho).
      destruct HN as [-> | ->]; [reflexivity|]. destruct t1; reflexivity. }
    assert (G : forall l, In a l -> mapM (fun ax => lap_axis (nth ax (gstep g) 0%R) (nth ax o 0%Q) (btype b ax) (nth ax Ms (afull [] 0%R))) l = Err ENotImpl).
    { induction l as [|c l IH]; intros Hin; [destruct Hin|]. cbn [mapM]. destruct (Hany (nth c (gstep g) 0%R) (nth c o 0%Q) (btype b c) (nth c Ms (afull [] 0%R))) as [E | (L & E)]; rewrite E; [reflexivity|].
      cbn [bind]. destruct Hin as [-> | Hin]; [rewrite Hbad in E; discriminate|]. rewrite IH; auto. }
    apply G. apply in_seq. lia.
Qed.
(* @ex *)
Lemma laplacian_matrix_errors_ex_lem :
  let g1 := mkgrid [1%nat] [1%R] [(0%R, 1%R)] in let g2 := mkgrid [4%nat] [1%R] [(0%R, 4%R)] in
  let b := constant_bc [(Neumann, Dirichlet)] [(Some 0%R, Some 0%R)] in
  (exists a, (a < gndim g1)%nat /\ (nth a (gshape g1) 0 < 2)%nat) /\
  (forall a, (a < gndim g2)%nat -> (2 <= nth a (gshape g2) 0)%nat) /\
  (exists a t1 t2 z, (a < gndim g2)%nat /\ nth_error (btypes b) a = Some (t1, t2) /\ (t1 = Neumann \/ t2 = Neumann) /\ (nth a [1%Q] 0 == inject_Z z)%Q).
Proof.
  split; [exists 0%nat; cbn; lia|]. split; [intros [|a] Ha; unfold gndim in Ha; cbn in *; lia|].
  exists 0%nat, Neumann, Dirichlet, 1. repeat split; auto.
Qed.
