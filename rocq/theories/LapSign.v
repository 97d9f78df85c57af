(** * Laplacian matrices are negative semidefinite; their kernel contains constants only *)
From Verif Require Import Prelude NdArr Grids_model Spec SpecLin LinAlg Boundaries_model FDProofs FDProps WallBC ImposeProps WallFD Laplacian_model LaplacianProofs LaplacianProps.
Set Implicit Arguments.
Local Open Scope Z_scope.

(** Symmetric, off-diagonal entries nonnegative, row sums nonpositive, consecutive indices coupled. *)
Definition dissip (A : arr R) : Prop := exists n, (0 < n)%nat /\ shp A = [n; n] /\
  (forall i j, 0 <= i < Z.of_nat n -> 0 <= j < Z.of_nat n -> get A [i; j] = get A [j; i]) /\
  (forall i j, 0 <= i < Z.of_nat n -> 0 <= j < Z.of_nat n -> i <> j -> (0 <= get A [i; j])%R) /\
  (forall i, 0 <= i < Z.of_nat n -> (rsum n (fun j => get A [i; j]) <= 0)%R) /\
  (forall i, 0 <= i -> i + 1 < Z.of_nat n -> (0 < get A [i; (i + 1)%Z])%R).

(** Consecutive indices are coupled at least as strongly as cells a distance [h] apart. *)
Definition coupled (h : R) (A : arr R) : Prop := forall i, 0 <= i -> i + 1 < Z.of_nat (nth 0 (shp A) 0%nat) -> (/ h ^ 2 <= get A [i; (i + 1)%Z])%R.

Lemma quad_form n (L : Z -> Z -> R) u : (forall i j, 0 <= i < Z.of_nat n -> 0 <= j < Z.of_nat n -> L i j = L j i) ->
  rsum n (fun i => u i * rsum n (fun j => L i j * u j))%R =
  (rsum n (fun i => rsum n (fun j => L i j) * (u i * u i)) - / 2 * rsum n (fun i => rsum n (fun j => L i j * ((u i - u j) * (u i - u j)))))%R.
Proof.
  intros HS.
  set (A := rsum n (fun i => rsum n (fun j => L i j) * (u i * u i))%R).
  set (B := rsum n (fun i => u i * rsum n (fun j => L i j * u j))%R).
  assert (E : rsum n (fun i => rsum n (fun j => L i j * ((u i - u j) * (u i - u j))))%R = (A + A - 2 * B)%R).
  { transitivity (rsum n (fun i => rsum n (fun j => L i j * (u i * u i)) + rsum n (fun j => L i j * (u j * u j)) - 2 * rsum n (fun j => u i * (L i j * u j)))%R).
    { apply rsum_ext. intros i Hi. rewrite <- rsum_scal, <- rsum_plus, <- rsum_minus. apply rsum_ext. intros j Hj. ring. }
    rewrite rsum_minus, rsum_plus, rsum_scal. f_equal; [f_equal|f_equal].
    - unfold A. apply rsum_ext. intros i Hi. apply rsum_scal_r.
    - rewrite rsum_swap. unfold A. apply rsum_ext. intros j Hj. rewrite <- rsum_scal_r. apply rsum_ext. intros i Hi. rewrite HS by auto. reflexivity.
    - unfold B. apply rsum_ext. intros i Hi. apply rsum_scal. }
  rewrite E. field.
Qed.

Lemma rsum_term n f i : (forall j, 0 <= j < Z.of_nat n -> (0 <= f j)%R) -> 0 <= i < Z.of_nat n -> (f i <= rsum n f)%R.
Proof.
  intros H Hi. rewrite <- (@rsum_dl n i f Hi). apply rsum_le. intros j Hj. specialize (H j Hj). unfold dl. destruct (i =? j); lra.
Qed.

Lemma dissip_quad A u n : dissip A -> shp A = [n; n] ->
  (rsum n (fun i => u i * rsum n (fun j => get A [i; j] * u j)) <= 0)%R /\
  ((rsum n (fun i => u i * rsum n (fun j => get A [i; j] * u j)) = 0)%R -> forall i, 0 <= i -> i + 1 < Z.of_nat n -> u i = u (i + 1)%Z).
Proof.
  intros (n' & Hn & S & Hs & Ho & Hr & Hc) S'. rewrite S in S'. injection S' as <-.
  rewrite (@quad_form n' (fun i j => get A [i; j]) u Hs).
  set (A1 := rsum n' (fun i => rsum n' (fun j => get A [i; j]) * (u i * u i))%R).
  assert (H1 : (A1 <= 0)%R).
  { unfold A1. rewrite <- (rsum_0 n'). apply rsum_le. intros i Hi. specialize (Hr i Hi). pose proof (Rle_0_sqr (u i)) as Hq. unfold Rsqr in Hq. nra. }
  assert (Hnn : forall i j, 0 <= i < Z.of_nat n' -> 0 <= j < Z.of_nat n' -> (0 <= get A [i; j] * ((u i - u j) * (u i - u j)))%R).
  { intros i j Hi Hj. pose proof (Rle_0_sqr (u i - u j)) as Hq. unfold Rsqr in Hq. destruct (Z.eq_dec i j) as [->|N].
    - replace (u j - u j)%R with 0%R by ring. lra.
    - apply Rmult_le_pos; auto. }
  assert (H2 : (0 <= rsum n' (fun i => rsum n' (fun j => get A [i; j] * ((u i - u j) * (u i - u j)))))%R).
  { apply rsum_nonneg. intros i Hi. apply rsum_nonneg. intros j Hj. auto. }
  split; [lra|]. intros E i Hi Hi1.
  assert (H3 : rsum n' (fun i => rsum n' (fun j => get A [i; j] * ((u i - u j) * (u i - u j))))%R = 0%R) by lra.
  assert (H4 : (get A [i; (i + 1)%Z] * ((u i - u (i + 1)%Z) * (u i - u (i + 1)%Z)) <= 0)%R).
  { rewrite <- H3. eapply Rle_trans; [|apply (@rsum_term n' (fun i => rsum n' (fun j => get A [i; j] * ((u i - u j) * (u i - u j))))%R i)]; [| | lia].
    - apply (@rsum_term n' (fun j => get A [i; j] * ((u i - u j) * (u i - u j)))%R (i + 1)); [|lia]. intros j Hj. apply Hnn; lia.
    - intros k Hk. apply rsum_nonneg. intros j Hj. auto. }
  specialize (Hc i Hi Hi1). pose proof (Rle_0_sqr (u i - u (i + 1)%Z)) as Hq. unfold Rsqr in Hq.
  assert (H5 : ((u i - u (i + 1)%Z) * (u i - u (i + 1)%Z) = 0)%R) by nra. assert ((u i - u (i + 1)%Z) = 0)%R by nra. lra.
Qed.

(** The separable operator. *)
Lemma nsum_term d f i : (forall j, (j < d)%nat -> (0 <= f j)%R) -> (i < d)%nat -> (f i <= nsum d f)%R.
Proof.
  induction d as [|d IH]; intros H Hi; [lia|]. rewrite nsum_S. pose proof (H d ltac:(lia)).
  assert (0 <= nsum d f)%R by (apply nsum_nonneg; intros; apply H; lia).
  destruct (Nat.eq_dec i d) as [->|N]; [lra|]. assert (f i <= nsum d f)%R by (apply IH; [intros; apply H; lia | lia]). lra.
Qed.
Lemma sizes_nth ops a d : (a < length ops)%nat -> nth a (sizes ops) d = nth 0 (shp (nth a ops (afull [] 0%R))) 0%nat.
Proof. intros Ha. unfold sizes. rewrite (@nth_map' _ _ _ ops a (afull [] 0%R)) by exact Ha. reflexivity. Qed.

Definition linq (ops : list (arr R)) (w : list Z -> R) (a : nat) (ix : list Z) : R :=
  rsum (nth a (sizes ops) 0%nat) (fun i => w (upd a i ix) * rsum (nth a (sizes ops) 0%nat) (fun j => get (nth a ops (afull [] 0)) [i; j] * w (upd a j ix)))%R.
Lemma inner_sep ops w : inner (sizes ops) w (separable ops w) =
  nsum (length ops) (fun a => asum (upd a 1%nat (sizes ops)) (linq ops w a)).
Proof.
  unfold inner, separable.
  transitivity (asum (sizes ops) (fun ix => nsum (length ops) (fun a => w ix * matrix_along (nth a ops (afull [] 0%R)) a w ix)%R)).
  { apply asum_ext. intros ix _. rewrite nsum_scal. reflexivity. }
  rewrite asum_nsum. apply nsum_ext. intros a Ha. assert (HL : (a < length (sizes ops))%nat) by (unfold sizes; rewrite map_length; exact Ha).
  rewrite asum_axis with (ax := a) by exact HL. apply asum_ext. intros ix Hix. unfold linq. apply rsum_ext. intros i Hi.
  assert (Hla : (a < length ix)%nat) by (rewrite (inb_length _ _ Hix), upd_length; exact HL).
  f_equal. unfold matrix_along. rewrite sizes_nth by exact Ha. apply rsum_ext. intros j Hj.
  rewrite nth_upd_same by exact Hla. rewrite upd_upd_same. reflexivity.
Qed.

Lemma sep_dissip ops w : Forall dissip ops ->
  (inner (sizes ops) w (separable ops w) <= 0)%R /\
  (inner (sizes ops) w (separable ops w) = 0%R ->
     forall ix a, inb (sizes ops) ix -> (a < length ops)%nat -> nth a ix 0 + 1 < Z.of_nat (nth a (sizes ops) 0%nat) -> w ix = w (upd a (nth a ix 0 + 1) ix)).
Proof.
  intros Hd. rewrite inner_sep. rewrite Forall_forall in Hd.
  assert (Hone : forall a ix, (a < length ops)%nat -> (linq ops w a ix <= 0)%R /\
    (linq ops w a ix = 0%R -> forall i, 0 <= i -> i + 1 < Z.of_nat (nth a (sizes ops) 0%nat) -> w (upd a i ix) = w (upd a (i + 1) ix))).
  { intros a ix Ha. unfold linq. assert (HD : dissip (nth a ops (afull [] 0%R))) by (apply Hd; apply nth_In; exact Ha).
    apply (@dissip_quad (nth a ops (afull [] 0%R)) (fun i => w (upd a i ix))); [exact HD|].
    destruct HD as (n & _ & S & _). rewrite sizes_nth by exact Ha. rewrite S. reflexivity. }
  set (G := fun a => asum (upd a 1%nat (sizes ops)) (linq ops w a)).
  assert (HG : forall a, (a < length ops)%nat -> (0 <= - G a)%R).
  { intros a Ha. assert (H : (G a <= 0)%R); [|lra].
    unfold G. rewrite <- (asum_0 (upd a 1%nat (sizes ops))). apply asum_le. intros ix Hix. apply (Hone a ix Ha). }
  assert (Ht : (0 <= - nsum (length ops) G)%R) by (rewrite <- nsum_opp; apply nsum_nonneg; auto).
  split; [lra|]. intros E ix a Hix Ha Hn.
  assert (Ga : G a = 0%R).
  { pose proof (HG a Ha). pose proof (@nsum_term (length ops) (fun a => - G a)%R a HG Ha) as H1. rewrite nsum_opp in H1. cbv beta in H1. lra. }
  assert (HL : (a < length (sizes ops))%nat) by (unfold sizes; rewrite map_length; exact Ha).
  pose proof (@inb_nth _ _ a Hix HL) as Hr.
  assert (Hla : (a < length ix)%nat) by (rewrite (inb_length _ _ Hix); exact HL).
  assert (Hz : inb (upd a 1%nat (sizes ops)) (upd a 0 ix)) by (apply inb_upd; [exact Hix | lia]).
  assert (Hzero : linq ops w a (upd a 0 ix) = 0%R).
  { assert (H1 : (- linq ops w a (upd a 0%Z ix) = 0)%R).
    { apply (@asum_nonneg_0 (upd a 1%nat (sizes ops)) (fun ix => - linq ops w a ix)%R); [| |exact Hz].
      - intros jx Hj. pose proof (proj1 (Hone a jx Ha)). lra.
      - rewrite asum_opp. fold (G a). lra. }
    lra. }
  pose proof (proj2 (Hone a (upd a 0 ix) Ha) Hzero (nth a ix 0) ltac:(lia) Hn) as Hfin.
  rewrite !upd_upd_same in Hfin. rewrite upd_nth_same in Hfin. exact Hfin.
Qed.

(** Adjacent equal implies constant. *)
Lemma adjacent_constant s : forall (w : list Z -> R), allpos s ->
  (forall ix a, inb s ix -> (a < length s)%nat -> nth a ix 0 + 1 < Z.of_nat (nth a s 0%nat) -> w ix = w (upd a (nth a ix 0 + 1) ix)) ->
  exists c, forall ix, inb s ix -> w ix = c.
Proof.
  induction s as [|n s IH]; intros w Hp H.
  - exists (w []). intros [|i ix] Hi; [reflexivity | cbn in Hi; tauto].
  - inversion Hp as [|? ? Hn Hp']; subst.
    destruct (IH (fun ix => w (0 :: ix)) Hp') as (c & Hc).
    { intros ix a Hi Ha Hb. apply (H (0 :: ix) (S a)); cbn [inb length nth]; auto; [split; [lia | exact Hi] | lia]. }
    exists c. intros [|i ix] Hi; [cbn in Hi; tauto|]. cbn [inb] in Hi. destruct Hi as (Hi & Hix).
    rewrite <- (Hc ix Hix). destruct Hi as (Hi0 & Hi1). revert Hi1. pattern i. apply natlike_ind; [|  |exact Hi0]; [reflexivity|].
    intros k Hk IHk Hk1. rewrite <- IHk by lia. symmetry. apply (H (k :: ix) 0%nat); cbn [inb length nth]; [split; [lia | exact Hix] | lia | lia].
Qed.

Lemma dissip_symmetric A : dissip A -> symmetric A.
Proof. intros (n & _ & S & H & _). exists n. auto. Qed.
Lemma dissip_sizes ops : Forall dissip ops -> allpos (sizes ops).
Proof.
  induction 1 as [|A ops (n & Hn & S & _) HF IH]; [constructor|]. unfold sizes in *. cbn [map]. constructor; [rewrite S; exact Hn | exact IH].
Qed.
Lemma sep_kernel ops w : Forall dissip ops -> (forall ix, inb (sizes ops) ix -> separable ops w ix = 0%R) ->
  exists c, forall ix, inb (sizes ops) ix -> w ix = c.
Proof.
  intros Hd H. apply adjacent_constant; [apply dissip_sizes; exact Hd|].
  destruct (@sep_dissip ops w Hd) as (_ & H2). intros ix a Hi Ha Hn. apply H2; auto.
  - unfold inner. rewrite <- (asum_0 (sizes ops)). apply asum_ext. intros jx Hj. rewrite H by exact Hj. ring.
  - unfold sizes in Ha. rewrite map_length in Ha. exact Ha.
Qed.
Lemma eig_nonpos ops x : Forall dissip ops -> eigenvalue_of ops x -> (x <= 0)%R.
Proof.
  intros Hd (w & (ix & Hi & Hw) & He). destruct (@sep_dissip ops w Hd) as (H1 & _).
  assert (E : inner (sizes ops) w (separable ops w) = (x * asum (sizes ops) (fun jx => w jx * w jx))%R).
  { unfold inner. rewrite <- asum_scal. apply asum_ext. intros jx Hj. rewrite He by exact Hj. ring. }
  assert (Hq : forall jx, inb (sizes ops) jx -> (0 <= w jx * w jx)%R) by (intros jx _; apply Rle_0_sqr).
  assert (Hpos : (0 <= asum (sizes ops) (fun jx => w jx * w jx))%R) by (apply asum_nonneg; exact Hq).
  assert (Hne : asum (sizes ops) (fun jx => w jx * w jx)%R <> 0%R).
  { intros E0. apply Hw. assert (w ix * w ix = 0)%R by (apply (@asum_nonneg_0 (sizes ops) (fun jx => w jx * w jx)%R Hq E0 ix Hi)). nra. }
  rewrite E in H1. destruct (Rle_or_lt x 0) as [|Hx]; [assumption|]. nra.
Qed.

(** Entries of the matrices. *)
Section Axis.
Variables (u : garr) (b : bcs) (a : nat).
Let g := ggrid u.
Let n := nth a (gshape g) 0%nat.
Let h := hstep g a.
Hypothesis (Hu : wf_garr u) (Ha : (a < gndim g)%nat) (Hax : homogeneous_axis b u a).
Hypothesis (Hn : (2 <= n)%nat) (Hn3 : edge_side b (goff u) a = None -> (3 <= n)%nat).
Let Hh : h <> 0%R.
Proof. destruct Hu as ((HL & _ & _ & H) & _). fold g in H, HL. rewrite Forall_forall in H. apply H. apply nth_In. lia. Qed.
Let Hh2 : (0 < h ^ 2)%R.
Proof. pose proof (Rlt_0_sqr h Hh) as H. unfold Rsqr in H. cbn. lra. Qed.
Lemma tri_dissip m s1 s2 A : (0 < m)%nat -> (-1 <= s1 <= 1)%R -> (-1 <= s2 <= 1)%R -> shp A = [m; m] ->
  (forall i j, 0 <= i < Z.of_nat m -> 0 <= j < Z.of_nat m -> get A [i; j] = (tri m h s1 s2 i j / h ^ 2)%R) -> dissip A /\ coupled h A.
Proof.
  intros Hm H1 H2 S HA. split.
  2:{ unfold coupled. rewrite S. cbn [nth]. intros i Hi Hi1. rewrite HA by lia. assert (Hi2 : (0 < / h ^ 2)%R) by (apply Rinv_0_lt_compat; exact Hh2).
      unfold Rdiv. rewrite <- (Rmult_1_l (/ h ^ 2)) at 1. apply Rmult_le_compat_r; [lra|]. unfold tri, dl. dcase; lra. }
  exists m. split; [exact Hm|]. split; [exact S|].
  assert (Hi2 : (0 < / h ^ 2)%R) by (apply Rinv_0_lt_compat; exact Hh2).
  split; [intros i j Hi Hj; rewrite !HA by auto; rewrite tri_sym; reflexivity|]. split; [|split].
  - intros i j Hi Hj N. rewrite HA by auto. unfold Rdiv. apply Rmult_le_pos; [|lra]. unfold tri, dl. dcase; lra.
  - intros i Hi. rewrite (@rsum_ext m _ (fun j => tri m h s1 s2 i j / h ^ 2 * 1)%R) by (intros j Hj; rewrite HA by auto; ring).
    rewrite (@rsum_tri m h s1 s2 i (fun _ => 1%R) Hh Hi). cbv beta. unfold Rdiv.
    rewrite <- (Rmult_0_l (/ h ^ 2)). apply Rmult_le_compat_r; [lra|]. destruct (i =? Z.of_nat m - 1); destruct (i =? 0); lra.
  - intros i Hi Hi1. rewrite HA by lia. unfold Rdiv. apply Rmult_lt_0_compat; [|lra]. unfold tri, dl. dcase; lra.
Qed.
Lemma per_dissip M : (3 <= n)%nat -> laplacian_matrix n h = Ok M -> (dissip M /\ coupled h M) /\ circulant M.
Proof.
  intros H3 EM. unfold laplacian_matrix in EM. destruct (Nat.ltb_spec n 2); [lia|]. injection EM as <-.
  assert (Hi2 : (0 < / h ^ 2)%R) by (apply Rinv_0_lt_compat; exact Hh2).
  split; [split; [|unfold coupled; cbn [shp nth get]; intros i Hi Hi1; rewrite col_periodic by (auto; lia); rewrite (Z.mod_small (i + 1)) by lia; unfold dl; rewrite Z.eqb_refl; destruct (Z.eqb_spec i (i + 1)); [lia|];
    unfold Rdiv; rewrite <- (Rmult_1_l (/ h ^ 2)) at 1; apply Rmult_le_compat_r; [lra|]; destruct (_ =? _); lra]|]; exists n; (split; [lia|]); (split; [reflexivity|]); cbn [get nth].
  - split; [|split; [|split]].
    + intros i j Hi Hj. unfold lap_column. rewrite !mod_range by lia. destruct (Z.ltb_spec i j); destruct (Z.ltb_spec j i); try lia; dcase; reflexivity.
    + intros i j Hi Hj N. rewrite col_periodic by auto. unfold Rdiv. apply Rmult_le_pos; [|lra]. unfold dl. destruct (Z.eqb_spec i j); [lia|].
      destruct (_ =? _); destruct (_ =? _); lra.
    + intros i Hi. rewrite (@rsum_ext n _ (fun j => lap_column n h ((i - j) mod Z.of_nat n)%Z * 1)%R) by (intros; ring).
      rewrite (@rsum_periodic n h i (fun _ => 1%R) Hh H3 Hi). right. field. exact Hh.
    + intros i Hi Hi1. rewrite col_periodic by (auto; lia). rewrite (Z.mod_small (i + 1)) by lia. unfold dl. rewrite Z.eqb_refl. destruct (Z.eqb_spec i (i + 1)); [lia|].
      unfold Rdiv. apply Rmult_lt_0_compat; [|lra]. destruct (_ =? _); lra.
  - intros i j Hi Hj. rewrite Z.sub_0_r. rewrite Z.mod_mod by lia. reflexivity.
Qed.
Lemma lap_axis_dissip M : laplacian_matrix n h = Ok M ->
  exists L, lap_axis (nth a (gstep g) 0%R) (nth a (goff u) 0%Q) (btype b a) M = Ok L /\ (dissip L /\ coupled h L) /\ (periodic_axis b a -> circulant L).
Proof.
  intros EM. pose proof EM as EM'. unfold laplacian_matrix in EM'. destruct (Nat.ltb_spec n 2); [lia|]. injection EM' as EM'.
  fold (hstep g a). fold h. unfold lap_axis, btype.
  destruct Hax as [Hp | [(Hcen & t1 & t2 & (x1 & y1 & T1 & V1) & (x2 & y2 & T2 & V2) & D1 & D2) | (He & HV)]].
  - pose proof Hp as Hp'. unfold periodic_axis in Hp. rewrite (nth_of _ _ _ Hp). cbn [fst snd]. change (isNeu Periodic) with false. change (isDir Periodic) with false. cbn [andb orb].
    assert (He : edge_side b (goff u) a = None) by (unfold edge_side; rewrite Hp; reflexivity). pose proof (Hn3 He) as H3n.
    exists M. split; [destruct (isclose _ _); destruct (isclose _ _); reflexivity|]. destruct (per_dissip H3n EM). auto.
  - rewrite T1 in T2. injection T2 as <- ->. rewrite (nth_of _ _ _ T1). cbn [fst snd].
    assert (He : edge_side b (goff u) a = None) by (apply edge_not_half; exact Hcen). pose proof (Hn3 He) as H3n. unfold centred in Hcen.
    assert (Hc1 : isclose (nth a (goff u) 0%Q) (1 # 2) = true) by (rewrite Hcen; reflexivity).
    assert (Hc2 : isclose (mod1 (nth a (goff u) 0%Q)) 0 = false) by (apply (@half_not_int _ 0); rewrite Hcen; reflexivity).
    rewrite Hc1, Hc2. rewrite (@lap_adapt t1), (@lap_adapt t2) by auto.
    eexists. split; [reflexivity|]. split.
    + apply (@tri_dissip n (sgn t1) (sgn t2)); [lia | destruct D1 as [-> | ->]; cbn; lra | destruct D2 as [-> | ->]; cbn; lra | rewrite <- EM'; reflexivity|].
      intros i j Hi Hj. apply wall_entries; auto.
    + intros Hp. unfold periodic_axis in Hp. rewrite T1 in Hp. injection Hp as -> ->. destruct D1; discriminate.
  - assert (Hex : exists top v, edge_side b (goff u) a = Some (top, v)) by (clear -He; destruct (edge_side b (goff u) a) as [[top v]|]; [eauto | congruence]).
    destruct Hex as (top & v & Ee).
    destruct (edge_side_inv _ _ _ Ee) as (Hb & _ & Ho). unfold btype in Hb. rewrite Hb. cbn [fst snd].
    assert (Hc1 : isclose (nth a (goff u) 0%Q) (1 # 2) = false) by (rewrite Ho; destruct top; reflexivity).
    assert (Hc2 : isclose (mod1 (nth a (goff u) 0%Q)) 0 = true) by (apply (@int_isclose _ (if top then 1 else 0)); rewrite Ho; destruct top; reflexivity).
    rewrite Hc1, Hc2. change (isDir Dirichlet) with true. cbn [andb].
    exists (mcut M). split; [reflexivity|]. split.
    + apply (@tri_dissip (n - 1)%nat 0 0); [lia | lra | lra | rewrite <- EM'; reflexivity|]. rewrite <- EM'. cbn [mcut get nth].
      intros i j Hi Hj. rewrite mod_range by lia. unfold lap_column, tri, dl. destruct (Z.ltb_spec i j); dcase; field; auto.
    + intros Hp. unfold periodic_axis in Hp. rewrite (nth_of _ _ _ Hp) in Hb. discriminate.
Qed.
End Axis.

Lemma lap_matrices_dissip u b Ls : wf_garr u ->
  (forall a, (a < gndim (ggrid u))%nat -> homogeneous_axis b u a /\ enough_cells (ggrid u) b (goff u) a) ->
  laplacian_matrix_w_boundaries (ggrid u) (goff u) b = Ok Ls ->
  Forall dissip Ls /\ ((forall a, (a < gndim (ggrid u))%nat -> periodic_axis b a) -> Forall circulant Ls) /\
  (forall a, (a < gndim (ggrid u))%nat -> coupled (hstep (ggrid u) a) (nth a Ls (afull [] 0%R))).
Proof.
  intros Hu H. unfold laplacian_matrix_w_boundaries.
  destruct (@lap_first u (proj1 Hu)) as (Ms & E & HM). { intros a Ha. apply (H a Ha). }
  rewrite E. cbn [bind].
  destruct (@mapM_seq _ (fun ax => lap_axis (nth ax (gstep (ggrid u)) 0%R) (nth ax (goff u) 0%Q) (btype b ax) (nth ax Ms (afull [] 0%R)))
     (fun a L => (dissip L /\ coupled (hstep (ggrid u) a) L) /\ (periodic_axis b a -> circulant L)) (gndim (ggrid u))) as (Ls' & EL & HLL & HL).
  { intros a Ha. destruct (H a Ha) as (Hh & H2 & H3). destruct (@lap_axis_dissip u b a Hu Ha Hh H2 H3 _ (HM a Ha)) as (L & EL & P).
    exists L. split; [exact EL | exact P]. }
  rewrite EL. intros E'; injection E' as <-. split; [|split; [intros Hp | intros a Ha; apply HL; exact Ha]]; apply Forall_forall; intros A HA; destruct (In_nth _ _ (afull [] 0%R) HA) as (a & Hal & <-); rewrite HLL in Hal; apply HL; auto.
Qed.

Lemma asize_pos s : allpos s -> (0 < INR (asize s))%R.
Proof.
  intros H. apply lt_0_INR. induction H as [|n s Hn H IH]; cbn; [lia|]. apply Nat.mul_pos_pos; auto.
Qed.
