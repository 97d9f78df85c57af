(** * Analysis of the two-dimensional pseudo-spectral advection term *)
From Verif Require Import Prelude NdArr LinAlg Cplx Grids_model FastDiag_model FourierProofs FourierLine Spectral_model SpectralProps SpectralUtilProps FourierPlane SpecFourier.
Set Implicit Arguments.
Local Open Scope Z_scope.

Lemma C_dec (a b : cplx) : {a = b} + {a <> b}.
Proof. destruct a as [a1 a2], b as [b1 b2]. destruct (Req_EM_T a1 b1) as [->|N]; [destruct (Req_EM_T a2 b2) as [->|N]; [left; reflexivity|]|]; right; intros E; injection E; auto. Qed.
Lemma signed_neg n p : 0 <= p < Z.of_nat n -> 2 * p <> Z.of_nat n -> signed n (nneg n p) = - signed n p.
Proof.
  intros Hp HN. unfold nneg. destruct (Z.eq_dec p 0) as [->|]; [rewrite Z.mod_0_l by lia; unfold signed; zb; lia|].
  replace ((- p) mod Z.of_nat n) with (Z.of_nat n - p) by (apply Z.mod_unique with (q := -1); lia). unfold signed. zb; lia.
Qed.
Lemma kept_rows_bound n a : (3 <= n)%nat -> kept_rows n a -> - Z.of_nat n < 2 * a < Z.of_nat n.
Proof. intros Hn H. unfold kept_rows in H. Z.to_euclidean_division_equations. lia. Qed.
Lemma kept_columns_bound m b : kept_columns m b -> 2 * b < Z.of_nat m \/ m = 0%nat.
Proof. intros H. unfold kept_columns in H. rewrite Nat2Z.inj_add, Nat2Z.inj_div in H. Z.to_euclidean_division_equations. lia. Qed.
Lemma kept_dec n m a b : kept_rows n a /\ kept_columns m b \/ ~ (kept_rows n a /\ kept_columns m b).
Proof. unfold kept_rows, kept_columns. set (x := (2 * Z.of_nat n / 3 + 1) / 2). set (y := 2 * Z.of_nat n / 3 / 2). set (z := 2 * Z.of_nat (m / 2 + 1) / 3). lia. Qed.
Lemma row_wave_signed n i : row_wave n i = signed n i. Proof. reflexivity. Qed.

(** Nothing is stored at the highest wave numbers of either axis. *)
Definition no_nyquist (n m : nat) (W : Z -> Z -> cplx) : Prop :=
  forall p q, 0 <= p < Z.of_nat n -> 0 <= 2 * q <= Z.of_nat m -> 2 * p = Z.of_nat n \/ 2 * q = Z.of_nat m -> W p q = C0.
Lemma band_no_nyquist n m W : (3 <= n)%nat -> (0 < m)%nat -> band_limited n m W -> no_nyquist n m (fun p q => get W [p; q]).
Proof.
  intros Hn Hm H p q Hp Hq HN. apply H; [exact Hp | rewrite Nat2Z.inj_div; Z.to_euclidean_division_equations; lia |]. intros [K1 K2].
  apply kept_rows_bound in K1; [|exact Hn]. apply kept_columns_bound in K2. rewrite row_wave_signed in K1. unfold signed in K1. revert K1. zb; lia.
Qed.
(** A Fourier multiplier acts on the full spectrum. *)
Lemma herm2_symbol n m W (mu : Z -> Z -> cplx) p q : (0 < n)%nat -> (0 < m)%nat -> no_nyquist n m W -> (forall a b, mu (- a) (- b) = Cconj (mu a b)) ->
  0 <= p < Z.of_nat n -> 0 <= q < Z.of_nat m ->
  herm2 n m (fun p q => Cmul (mu (signed n p) q) (W p q)) p q = Cmul (mu (signed n p) (signed m q)) (herm2 n m W p q).
Proof.
  intros Hn Hm HN Hmu Hp Hq. pose proof (@nneg_range n p Hn) as Hr.
  assert (Hny : 2 * p = Z.of_nat n -> forall q, 0 <= 2 * q <= Z.of_nat m -> W p q = C0 /\ W (nneg n p) q = C0).
  { intros E q' Hq'. split; apply HN; auto. left. unfold nneg. replace ((- p) mod Z.of_nat n) with p; [exact E|]. apply Z.mod_unique with (q := -1); lia. }
  assert (Hc : forall b z, 2 * p <> Z.of_nat n -> Cconj (Cmul (mu (signed n (nneg n p)) (- b)) z) = Cmul (mu (signed n p) b) (Cconj z)).
  { intros b z N. rewrite signed_neg by assumption. rewrite Hmu, Cconj_mul, Cconj_invol. reflexivity. }
  unfold herm2. destruct (Z.eqb_spec q 0) as [->|Hq0].
  - replace (signed m 0) with 0 by (unfold signed; zb; lia). destruct (Z.eq_dec (2 * p) (Z.of_nat n)) as [E|E].
    + destruct (Hny E 0 ltac:(lia)) as [E1 E2]. rewrite E1, E2. ceq.
    + pose proof (Hc 0 (W (nneg n p) 0) E) as E3. change (- 0) with 0 in E3. rewrite E3. ceq.
  - destruct (Z.ltb_spec (2 * q) (Z.of_nat m)) as [L|L].
    + replace (signed m q) with q by (unfold signed; zb; lia). reflexivity.
    + replace (signed m q) with (q - Z.of_nat m) by (unfold signed; zb; lia).
      destruct (Z.eqb_spec (2 * q) (Z.of_nat m)) as [L2|L2].
      * rewrite !(HN _ q) by (auto; lia). ceq.
      * destruct (Z.eq_dec (2 * p) (Z.of_nat n)) as [E|E].
        -- destruct (Hny E (Z.of_nat m - q) ltac:(lia)) as [_ E2]. rewrite E2. ceq.
        -- rewrite <- Hc by exact E. do 3 f_equal. lia.
Qed.
Lemma herm2_nyquist n m W p q : (0 < n)%nat -> no_nyquist n m W -> 0 <= p < Z.of_nat n -> 0 <= q < Z.of_nat m -> 2 * p = Z.of_nat n \/ 2 * q = Z.of_nat m -> herm2 n m W p q = C0.
Proof.
  intros Hn HN Hp Hq HE. pose proof (@nneg_range n p Hn) as Hr.
  assert (Hny : 2 * p = Z.of_nat n -> 2 * nneg n p = Z.of_nat n) by (intros E; unfold nneg; replace ((- p) mod Z.of_nat n) with p; [exact E|]; apply Z.mod_unique with (q := -1); lia).
  unfold herm2. zb; rewrite ?(HN p) by (intuition lia); rewrite ?(HN (nneg n p)) by (intuition lia); try ceq.
Qed.

(** ** Fourier symbols of the operators *)
Definition dxs (n : nat) (hx : R) (a b : Z) : cplx := Cmul two_pi_i (RtoC (freq n hx a)).
Definition dys (m : nat) (hy : R) (a b : Z) : cplx := Cmul two_pi_i (RtoC (freq m hy b)).
(** minus the inverse Laplacian, -1 at the mean mode *)
Definition sig (n m : nat) (hx hy : R) (a b : Z) : cplx :=
  if (a =? 0) && (b =? 0) then Copp C1 else RtoC (/ wave2 (freq n hx a) (freq m hy b)).
Definition uxs n m hx hy a b := Cmul (dys m hy a b) (sig n m hx hy a b).
Definition uys n m hx hy a b := Cmul (Copp (dxs n hx a b)) (sig n m hx hy a b).
Lemma freq_neg n h a : freq n h (- a) = (- freq n h a)%R.
Proof. unfold freq. rewrite opp_IZR. unfold Rdiv. ring. Qed.
Lemma dxs_neg n hx a b : dxs n hx (- a) (- b) = Cconj (dxs n hx a b).
Proof. unfold dxs. rewrite freq_neg. unfold two_pi_i. ceq. Qed.
Lemma dys_neg n hx a b : dys n hx (- a) (- b) = Cconj (dys n hx a b).
Proof. unfold dys. rewrite freq_neg. unfold two_pi_i. ceq. Qed.
Lemma sig_neg n m hx hy a b : sig n m hx hy (- a) (- b) = Cconj (sig n m hx hy a b).
Proof.
  unfold sig. replace ((- a =? 0) && (- b =? 0)) with ((a =? 0) && (b =? 0)) by (destruct (Z.eqb_spec a 0), (Z.eqb_spec (- a) 0), (Z.eqb_spec b 0), (Z.eqb_spec (- b) 0); try reflexivity; exfalso; lia). destruct ((a =? 0) && (b =? 0)); [ceq|].
  rewrite Cconj_RtoC. rewrite !freq_neg. f_equal. f_equal. unfold wave2. ring.
Qed.
Lemma uxs_neg n m hx hy a b : uxs n m hx hy (- a) (- b) = Cconj (uxs n m hx hy a b).
Proof. unfold uxs. rewrite dys_neg, sig_neg, Cconj_mul. reflexivity. Qed.
Lemma uys_neg n m hx hy a b : uys n m hx hy (- a) (- b) = Cconj (uys n m hx hy a b).
Proof. unfold uys. rewrite dxs_neg, sig_neg, Cconj_mul. ceq. Qed.
Lemma sig_stored n m hx hy i j : (0 < n)%nat -> (0 < m)%nat -> (0 < hx)%R -> (0 < hy)%R -> 0 <= i < Z.of_nat n -> 0 <= j ->
  Cdiv (Copp C1) (if (i =? 0) && (j =? 0) then C1 else Cmul (Cmul two_pi_i two_pi_i) (RtoC (Rabs (freq n hx (signed n i)) ^ 2 + Rabs (freq m hy j) ^ 2))) = sig n m hx hy (signed n i) j.
Proof.
  intros Hn Hm Hx Hy Hi Hj. unfold sig.
  assert (E0 : (signed n i =? 0) = (i =? 0)). { destruct (Z.eqb_spec i 0) as [->|]; [apply Z.eqb_eq; unfold signed; zb; lia|]. apply Z.eqb_neq. intros E. apply signed_0 in E; lia. }
  rewrite E0. destruct ((i =? 0) && (j =? 0)) eqn:Eb.
  - unfold Cdiv, Cinv, Cn2. apply Ceq; cbn; field.
  - assert (Hij : i <> 0 \/ j <> 0). { destruct (Z.eqb_spec i 0); destruct (Z.eqb_spec j 0); cbn in Eb; try discriminate; auto. }
    pose proof (@wave2_pos n m hx hy i j Hn Hm Hx Hy Hi Hij) as Hw. rewrite !pow2_abs.
    replace (Cmul (Cmul two_pi_i two_pi_i) (RtoC (freq n hx (signed n i) ^ 2 + freq m hy j ^ 2))) with (RtoC (- wave2 (freq n hx (signed n i)) (freq m hy j))) by (unfold wave2; apply Ceq; cbn; ring).
    unfold Cdiv, Cinv, Cn2. apply Ceq; cbn; field; lra.
Qed.
(** The velocity spectra as multiples of the vorticity spectrum. *)
Lemma velocity_symbols g n m hx hy W : grid2 g n m hx hy -> shp W = [n; (m / 2 + 1)%nat] ->
  exists U V, vorticity_to_velocity g W = Ok (U, V) /\ shp U = shp W /\ shp V = shp W /\
    forall i j, 0 <= i < Z.of_nat n -> 0 <= j <= Z.of_nat (m / 2) ->
      get U [i; j] = Cmul (uxs n m hx hy (signed n i) j) (get W [i; j]) /\ get V [i; j] = Cmul (uys n m hx hy (signed n i) j) (get W [i; j]).
Proof.
  intros Hg Hw. unfold vorticity_to_velocity, velocity_laplace. rewrite (rfft_mesh2 Hg). destruct Hg as (_ & _ & Hn & Hm & Hx & Hy).
  cbv zeta. rewrite ew_ok by (rewrite Hw; reflexivity). cbn [bind]. rewrite ew_ok by reflexivity. cbn [bind]. rewrite ew_ok by reflexivity. cbn [bind].
  eexists. eexists. split; [reflexivity|]. split; [rewrite Hw; reflexivity|]. split; [rewrite Hw; reflexivity|].
  cbn [get amap2 mesh_x mesh_y nth shp]. intros i j Hi Hj. rewrite (@sig_stored n m hx hy i j) by (assumption || lia). unfold uxs, uys, dys, dxs.
  set (s := sig _ _ _ _ _ _). set (w := get W [i; j]). clearbody s w. split; ceq.
Qed.
Lemma half_range m q : 0 <= 2 * q <= Z.of_nat m <-> 0 <= q <= Z.of_nat (m / 2).
Proof. rewrite Nat2Z.inj_div. Z.to_euclidean_division_equations. lia. Qed.
Lemma herm2_ext n m U V p q : (0 < n)%nat -> 0 <= p < Z.of_nat n -> 0 <= q < Z.of_nat m -> (forall i j, 0 <= i < Z.of_nat n -> 0 <= j <= Z.of_nat (m / 2) -> U i j = V i j) -> herm2 n m U p q = herm2 n m V p q.
Proof.
  intros Hn Hp Hq H. pose proof (@nneg_range n p Hn). assert (H' : forall i j, 0 <= i < Z.of_nat n -> 0 <= 2 * j <= Z.of_nat m -> U i j = V i j) by (intros; apply H; [|apply half_range]; assumption).
  unfold herm2. zb; rewrite ?H' by lia; reflexivity.
Qed.
(** The field with spectrum [mu . W]. *)
Lemma field_symbol n m (Y W : arr cplx) mu : shp Y = [n; (m / 2 + 1)%nat] -> (0 < n)%nat -> (0 < m)%nat -> Nat.Even m -> no_nyquist n m (fun p q => get W [p; q]) -> (forall a b, mu (- a) (- b) = Cconj (mu a b)) ->
  (forall i j, 0 <= i < Z.of_nat n -> 0 <= j <= Z.of_nat (m / 2) -> get Y [i; j] = Cmul (mu (signed n i) j) (get W [i; j])) ->
  shp (irfftn Y) = [n; m] /\ forall i j, RtoC (get (irfftn Y) [i; j]) = ifft2 n m (fun p q => Cmul (mu (signed n p) (signed m q)) (herm2 n m (fun p q => get W [p; q]) p q)) i j.
Proof.
  intros HY Hn Hm He HN Hmu HG. destruct (@irfftn2 Y n m HY Hn Hm He) as [S G]. split; [exact S|]. intros i j. rewrite G. apply ifft2_ext. intros p q Hp Hq.
  rewrite <- herm2_symbol by assumption. apply herm2_ext; assumption.
Qed.
Lemma filter_kept g n m : gshape g = [n; m] -> (3 <= n)%nat -> (0 < m)%nat ->
  exists F, brick_wall_filter_2d g = Ok F /\ shp F = [n; (m / 2 + 1)%nat] /\
    forall i j, 0 <= i < Z.of_nat n -> 0 <= j <= Z.of_nat (m / 2) ->
      (kept_rows n (row_wave n i) /\ kept_columns m j -> get F [i; j] = 1%R) /\ (~ (kept_rows n (row_wave n i) /\ kept_columns m j) -> get F [i; j] = 0%R).
Proof.
  intros Hg Hn Hm. destruct (@brick_get g n m Hg ltac:(lia) Hm) as (F & E & S & H). exists F. split; [exact E|]. split; [exact S|]. intros i j Hi Hj. destruct (H i j Hi Hj) as [H1 H2]. rewrite row_wave_signed.
  unfold kept_x, kept_y in *. unfold kept_rows, kept_columns. split; intros K; [apply H1 | apply H2]; [split; [right|]; tauto|]. intros [[K1|K1] K2]; [lia | tauto].
Qed.
(** The advection term before filtering, and the unforced explicit terms. *)
Definition adv_field (n m : nat) (hx hy : R) (H : Z -> Z -> cplx) (i j : Z) : cplx :=
  Copp (Cadd (Cmul (ifft2 n m (fun p q => Cmul (dxs n hx (signed n p) (signed m q)) (H p q)) i j) (ifft2 n m (fun p q => Cmul (uxs n m hx hy (signed n p) (signed m q)) (H p q)) i j))
             (Cmul (ifft2 n m (fun p q => Cmul (dys m hy (signed n p) (signed m q)) (H p q)) i j) (ifft2 n m (fun p q => Cmul (uys n m hx hy (signed n p) (signed m q)) (H p q)) i j))).
Lemma ns2d_form g n m hx hy sm W : grid2 g n m hx hy -> (3 <= n)%nat -> Nat.Even m -> shp W = [n; (m / 2 + 1)%nat] -> no_nyquist n m (fun p q => get W [p; q]) ->
  exists F N a, brick_wall_filter_2d g = Ok F /\ ns2d_explicit_terms g (Some sm) None W = Ok N /\ shp N = [n; (m / 2 + 1)%nat] /\
    (forall i j, RtoC (a i j) = adv_field n m hx hy (herm2 n m (fun p q => get W [p; q])) i j) /\
    forall p q, get N [p; q] = Cscal (get F [p; q]) (fft2 n m (fun i j => RtoC (a i j)) p q).
Proof.
  intros Hg Hn3 He Hw HN. pose proof (rfft_mesh2 Hg) as Em. destruct (@velocity_symbols g n m hx hy W Hg Hw) as (U & V & EV & SU & SV & GUV).
  destruct Hg as (Hs & _ & Hn & Hm & Hx & Hy). destruct (@filter_kept g n m Hs Hn3 Hm) as (F & EF & SF & _). exists F.
  unfold ns2d_explicit_terms. rewrite Em, EF, EV. cbn [bind fst snd]. rewrite ew_ok by (rewrite Hw; reflexivity). cbn [bind]. rewrite ew_ok by (rewrite Hw; reflexivity). cbn [bind].
  set (gx := amap2 _ (mesh_x n m hx) W). set (gy := amap2 _ (mesh_y n m hy) W).
  destruct (@field_symbol n m U W (uxs n m hx hy)) as [S1 G1]; try assumption; [congruence | apply uxs_neg | intros; apply GUV; assumption |].
  destruct (@field_symbol n m V W (uys n m hx hy)) as [S2 G2]; try assumption; [congruence | apply uys_neg | intros; apply GUV; assumption |].
  destruct (@field_symbol n m gx W (dxs n hx)) as [S3 G3]; try assumption; [reflexivity | apply dxs_neg | intros; reflexivity |].
  destruct (@field_symbol n m gy W (dys m hy)) as [S4 G4]; try assumption; [reflexivity | apply dys_neg | intros; reflexivity |].
  rewrite ew_ok by congruence. cbn [bind]. rewrite ew_ok by congruence. cbn [bind]. rewrite ew_ok by (cbn; congruence). cbn [bind].
  match goal with |- context [rfftn ?x] => set (adv := x) end. assert (Sa : shp adv = [n; m]) by (unfold adv; cbn; exact S3).
  destruct (@rfftn2 adv n m Sa) as [S5 G5]. rewrite ew_ok by congruence. cbn [bind].
  eexists. exists (fun i j => get adv [i; j]). split; [reflexivity|]. split; [reflexivity|]. split; [cbn; exact S5|]. split.
  - intros i j. unfold adv, adv_field. cbn [get amap amap2]. rewrite <- G1, <- G2, <- G3, <- G4. ceq.
  - intros p q. cbn [get amap2]. rewrite G5. reflexivity.
Qed.
