(** * C80: accuracy of the finite-difference operators, of interpolation and of the transport terms *)
From Verif Require Import Prelude NdArr Grids_model Spec Boundaries_model BoundariesPeriodic FD_model Interp_model Advection_model Diffusion_model Equations_model PRep FDProofs FDProps InterpProps AdvectionProofs AdvectionProps ConvectProps EquationsProps SpecNS SpecAcc AccBase.
Set Implicit Arguments.
Local Open Scope R_scope.

(** ** Moving points *)
Lemma mv_length a t x : length (moved_along a t x) = length x.
Proof. apply upd_length. Qed.
Lemma mv_mv a s t x : (a < length x)%nat -> moved_along a s (moved_along a t x) = moved_along a (t + s) x.
Proof. intros H. unfold moved_along. rewrite nth_upd_same by exact H. rewrite upd_upd_same. f_equal. ring. Qed.
Lemma mv_0 a x : moved_along a 0 x = x.
Proof. unfold moved_along. rewrite Rplus_0_r. apply upd_nth_same. Qed.
Lemma mv_comm a b s t x : a <> b -> moved_along a s (moved_along b t x) = moved_along b t (moved_along a s x).
Proof. intros H. unfold moved_along. rewrite !nth_upd_other by auto. apply upd_upd_comm. auto. Qed.
Lemma partial_der d a f f' x : partial_derivative d a f f' -> (a < d)%nat -> length x = d -> der (fun t => f (moved_along a t x)) (fun t => f' (moved_along a t x)).
Proof.
  intros H Ha Hx t eps He. destruct (H (moved_along a t x) ltac:(rewrite mv_length; exact Hx) eps He) as (dl & Hd). exists dl. intros s Hs Hs2. specialize (Hd s Hs Hs2).
  rewrite !mv_mv in Hd by lia. rewrite Rplus_0_l, Rplus_0_r in Hd. exact Hd.
Qed.
Lemma partial_unique d a f f' h' x : partial_derivative d a f f' -> partial_derivative d a f h' -> length x = d -> f' x = h' x.
Proof. intros A B Hx. apply (uniqueness_limite _ 0 _ _ (A x Hx) (B x Hx)). Qed.
Lemma partial_ext d a f h f' h' : (a < d)%nat -> (forall x, length x = d -> f x = h x) -> (forall x, length x = d -> f' x = h' x) -> partial_derivative d a f f' -> partial_derivative d a h h'.
Proof.
  intros Ha E E' H x Hx eps He. destruct (H x Hx eps He) as (dl & Hd). exists dl. intros s Hs Hs2. specialize (Hd s Hs Hs2).
  rewrite !E, E' in Hd by (rewrite ?mv_length; exact Hx). exact Hd.
Qed.
Lemma bd_ext d k M : forall f h, (forall x, length x = d -> f x = h x) -> bounded_derivatives d k M f -> bounded_derivatives d k M h.
Proof.
  induction k as [|k IH]; intros f h E [B D]; (split; [intros x Hx; rewrite <- E by exact Hx; apply B; exact Hx|]); [exact I|].
  intros a Ha. destruct (D a Ha) as (f' & P & B'). exists f'. split; [|exact B']. apply (@partial_ext d a f h f' f'); auto.
Qed.
Lemma bd_le d k M f x : bounded_derivatives d k M f -> length x = d -> Rabs (f x) <= M.
Proof. destruct k; intros [B _]; apply B. Qed.
Lemma bd_partial d k M f f1 a : bounded_derivatives d (S k) M f -> (a < d)%nat -> partial_derivative d a f f1 -> bounded_derivatives d k M f1.
Proof. intros [_ D] Ha P. destruct (D a Ha) as (f' & P' & B'). apply (@bd_ext d k M f'); [|exact B']. intros x Hx. apply (@partial_unique d a f f' f1 x P' P Hx). Qed.
Lemma bd_pred d k M : forall f, bounded_derivatives d (S k) M f -> bounded_derivatives d k M f.
Proof. induction k as [|k IH]; intros f [B D]; (split; [exact B|]); [exact I|]. intros a Ha. destruct (D a Ha) as (f' & P & B'). exists f'. split; [exact P | apply IH; exact B']. Qed.
Lemma bd_pos d k M f : bounded_derivatives d k M f -> 0 <= M.
Proof. intros B. pose proof (@bd_le d k M f (repeat 0 d) B (repeat_length _ _)). pose proof (Rabs_pos (f (repeat 0 d))). lra. Qed.

(** ** Points of a grid *)
Lemma point_length g o ix : length (point g o ix) = gndim g.
Proof. unfold point. rewrite map_length, seq_length. reflexivity. Qed.
Lemma point_nth g o ix a : (a < gndim g)%nat -> nth a (point g o ix) 0 = coord g o a ix.
Proof. intros H. unfold point. apply (nth_map_seq (fun a => coord g o a ix)). exact H. Qed.
Lemma point_shift g o a k ix : (a < gndim g)%nat -> length ix = gndim g -> point g o (shiftix a k ix) = moved_along a (IZR k * hstep g a) (point g o ix).
Proof.
  intros Ha Hix. apply (list_ext_nth 0); [rewrite mv_length, !point_length; reflexivity|]. intros b Hb. rewrite point_length in Hb. unfold moved_along.
  destruct (Nat.eq_dec b a) as [->|Hne].
  - rewrite nth_upd_same by (rewrite point_length; exact Ha). rewrite !point_nth by exact Ha. unfold coord, shiftix. rewrite nth_upd_same by lia. rewrite plus_IZR. ring.
  - rewrite nth_upd_other by auto. rewrite !point_nth by exact Hb. unfold coord, shiftix. rewrite nth_upd_other by auto. reflexivity.
Qed.
Lemma point_offs g o a q ix : (a < gndim g)%nat -> length o = gndim g -> point g (offs a q o) ix = moved_along a (Q2R q * hstep g a) (point g o ix).
Proof.
  intros Ha Ho. apply (list_ext_nth 0); [rewrite mv_length, !point_length; reflexivity|]. intros b Hb. rewrite point_length in Hb. unfold moved_along.
  destruct (Nat.eq_dec b a) as [->|Hne].
  - rewrite nth_upd_same by (rewrite point_length; exact Ha). rewrite !point_nth by exact Ha. unfold coord, offs. rewrite nth_upd_same by lia. rewrite Qreals.Q2R_plus. ring.
  - rewrite nth_upd_other by auto. rewrite !point_nth by exact Hb. unfold coord, offs. rewrite nth_upd_other by auto. reflexivity.
Qed.
Lemma point_off_eq g o o' ix : off_eq o o' -> point g o ix = point g o' ix.
Proof. intros H. unfold point. apply map_ext. intros a. unfold coord. rewrite (Qreals.Qeq_eqR _ _ (off_eq_nth a H)). reflexivity. Qed.
(** Wrapped values of samples of a periodic function. *)
Lemma samples_pval u f : wf_garr u -> box_periodic (ggrid u) f -> samples u f -> forall ix, length ix = gndim (ggrid u) -> pval u ix = f (point (ggrid u) (goff u) ix).
Proof.
  intros ((_ & _ & Hp & _) & Hs & Ho) Hf HS ix Hix. unfold pval. rewrite Hs. set (s := gshape (ggrid u)) in *. assert (Hl : length ix = length s) by exact Hix.
  rewrite HS by (apply inb_wrap; assumption). apply Hf; try apply point_length. intros a Ha. exists (- (nth a ix 0%Z / Z.of_nat (nth a s 0%nat)))%Z. rewrite !point_nth by exact Ha. unfold coord. fold s. rewrite wrap_nth by assumption.
  assert (Hpa : (0 < nth a s 0)%nat) by (apply Forall_nth; [exact Hp | exact Ha]). rewrite (Z.mod_eq (nth a ix 0%Z) (Z.of_nat (nth a s 0%nat))) by lia. rewrite minus_IZR, mult_IZR, opp_IZR, <- INR_IZR_INZ. ring.
Qed.
Lemma step_nz g a : wfg g -> (a < gndim g)%nat -> hstep g a <> 0.
Proof. intros (H1 & _ & _ & H2) Ha. rewrite Forall_forall in H2. apply H2. apply nth_In. rewrite H1. exact Ha. Qed.

(** ** Along one axis *)
Section Axis.
Variables (d a : nat) (f f1 : list R -> R) (M : R) (x : list R).
Hypothesis (Ha : (a < d)%nat) (Hx : length x = d) (P1 : partial_derivative d a f f1).
Lemma line3 : bounded_derivatives d 3 M f -> exists f2 f3, partial_derivative d a f1 f2 /\ partial_derivative d a f2 f3 /\ forall y, length y = d -> Rabs (f3 y) <= M.
Proof.
  intros B. pose proof (bd_partial B Ha P1) as B1. destruct (proj2 B1 a Ha) as (f2 & P2 & B2). destruct (proj2 B2 a Ha) as (f3 & P3 & B3). exists f2, f3. split; [exact P2|]. split; [exact P3|]. intros y Hy. apply (proj1 B3 y Hy).
Qed.
(** the centred quotient over the distance 2 delta *)
Lemma centred_quotient dl : bounded_derivatives d 3 M f -> dl <> 0 -> Rabs ((f (moved_along a dl x) - f (moved_along a (- dl) x)) / (2 * dl) - f1 x) <= M / 6 * dl ^ 2.
Proof.
  intros B Hd. destruct (line3 B) as (f2 & f3 & P2 & P3 & B3).
  pose proof (@centred1 (fun t => f (moved_along a t x)) _ _ _ M 0 dl (partial_der x P1 Ha Hx) (partial_der x P2 Ha Hx) (partial_der x P3 Ha Hx)) as C. cbv beta in C.
  specialize (C ltac:(intros t; apply B3; rewrite mv_length; exact Hx)). rewrite Rplus_0_l, Rminus_0_l, mv_0 in C.
  set (X := f (moved_along a dl x) - f (moved_along a (- dl) x)) in *. replace (X / (2 * dl) - f1 x) with ((X - 2 * dl * f1 x) * / (2 * dl)) by (field; exact Hd).
  rewrite Rabs_mult, Rabs_inv, Rabs_mult, (Rabs_right 2) by lra. assert (Hp : 0 < Rabs dl) by (apply Rabs_pos_lt; exact Hd).
  apply Rle_trans with (M / 3 * Rabs dl ^ 3 * / (2 * Rabs dl)); [apply Rmult_le_compat_r; [left; apply Rinv_0_lt_compat; lra | exact C]|].
  rewrite <- (pow2_abs dl). apply Req_le. field. lra.
Qed.
End Axis.
Section Ops.
Variables (u : gvar) (a : nat) (f f1 : list R -> R) (M : R).
Let g := ggrid (garray u).
Let d := gndim g.
Hypothesis (Hu : periodic_field u) (Hf : box_periodic g f) (HS : samples (garray u) f) (Ha : (a < d)%nat) (P1 : partial_derivative d a f f1) (B : bounded_derivatives d 3 M f).
Lemma pv_pt ix : length ix = gndim g -> pval (garray u) ix = f (point g (goff (garray u)) ix).
Proof. apply samples_pval; [apply Hu | exact Hf | exact HS]. Qed.
Lemma half_quotient h x y : h <> 0 -> length x = d -> y = moved_along a (h / 2) x -> Rabs ((f (moved_along a h x) - f x) / h - f1 y) <= M / 24 * h ^ 2.
Proof.
  intros Hh Hx ->. pose proof (@centred_quotient d a f f1 M (moved_along a (h / 2) x) Ha ltac:(rewrite mv_length; exact Hx) P1 (h / 2) B ltac:(lra)) as C.
  rewrite !mv_mv in C by lia. replace (h / 2 + h / 2) with h in C by field. replace (h / 2 + - (h / 2)) with 0 in C by ring. rewrite mv_0 in C. replace (2 * (h / 2)) with h in C by field. replace (M / 24 * h ^ 2) with (M / 6 * (h / 2) ^ 2) by field. exact C.
Qed.
Lemma fwd_within : exists w, forward_difference u a = Ok w /\ within (M / 24 * hstep g a ^ 2) w g (offs a (1 # 2) (goff (garray u))) f1.
Proof.
  destruct (forward_difference_spec_lem Hu Ha) as (w & E & (A1 & A2 & A3 & A4)). exists w. split; [exact E|]. split; [exact A1|]. split; [exact A2|]. split; [exact A3|]. intros ix Hix. rewrite A4 by exact Hix.
  pose proof (inb_length _ _ Hix) as Hl. unfold next. rewrite !pv_pt by (unfold shiftix; rewrite ?upd_length; exact Hl). fold g. rewrite point_shift by assumption. rewrite Rmult_1_l. apply half_quotient; [apply step_nz; [apply Hu | exact Ha] | apply point_length|].
  rewrite point_offs by (try exact Ha; apply (pf_off Hu)). f_equal. unfold Q2R. cbn. field.
Qed.
Lemma bwd_within : exists w, backward_difference u a = Ok w /\ within (M / 24 * hstep g a ^ 2) w g (offs a (- 1 # 2) (goff (garray u))) f1.
Proof.
  destruct (backward_difference_spec_lem Hu Ha) as (w & E & (A1 & A2 & A3 & A4)). exists w. split; [exact E|]. split; [exact A1|]. split; [exact A2|]. split; [exact A3|]. intros ix Hix. rewrite A4 by exact Hix.
  pose proof (inb_length _ _ Hix) as Hl. unfold prev. rewrite !pv_pt by (unfold shiftix; rewrite ?upd_length; exact Hl). fold g. set (x := point g (goff (garray u)) (shiftix a (-1) ix)).
  assert (Hx : length x = d) by apply point_length. assert (E0 : point g (goff (garray u)) ix = moved_along a (hstep g a) x).
  { unfold x. rewrite point_shift by assumption. rewrite mv_mv by (rewrite point_length; exact Ha). replace (IZR (-1) * hstep g a + hstep g a) with 0 by ring. rewrite mv_0. reflexivity. }
  rewrite E0. apply half_quotient; [apply step_nz; [apply Hu | exact Ha] | exact Hx|].
  rewrite point_offs by (try exact Ha; apply (pf_off Hu)). rewrite E0, mv_mv by lia. f_equal. unfold Q2R. cbn. field.
Qed.
Lemma ctr_within : exists w, central_difference u a = Ok w /\ within (M / 6 * hstep g a ^ 2) w g (goff (garray u)) f1.
Proof.
  destruct (central_difference_spec_lem Hu Ha) as (w & E & (A1 & A2 & A3 & A4)). exists w. split; [exact E|]. split; [exact A1|]. split; [exact A2|]. split; [exact A3|]. intros ix Hix. rewrite A4 by exact Hix.
  pose proof (inb_length _ _ Hix) as Hl. unfold next, prev. rewrite !pv_pt by (unfold shiftix; rewrite ?upd_length; exact Hl). fold g. rewrite !point_shift by assumption. replace (IZR 1 * hstep g a) with (hstep g a) by ring. replace (IZR (-1) * hstep g a) with (- hstep g a) by ring.
  apply (@centred_quotient d); try assumption; [apply point_length | apply step_nz; [apply Hu | exact Ha]].
Qed.
End Ops.
(* @prop C80 Difference quotients. On every grid in any dimension, for a periodic variable (at any offset) holding the values of a smooth function f, periodic in the box, whose partial derivatives up to third order are bounded by M: forward_difference and backward_difference along an axis are within M h^2 / 24, and central_difference within M h^2 / 6, of the partial derivative of f at the points where their result's offset says its values lie. *)
Lemma difference_quotients_second_order_lem : forall (u : gvar) (a : nat) (f f1 : list R -> R) (M : R),
  periodic_field u -> (a < gndim (ggrid (garray u)))%nat -> box_periodic (ggrid (garray u)) f -> samples (garray u) f ->
  bounded_derivatives (gndim (ggrid (garray u))) 3 M f -> partial_derivative (gndim (ggrid (garray u))) a f f1 ->
  (exists w, forward_difference u a = Ok w /\ within (M / 24 * hstep (ggrid (garray u)) a ^ 2) w (ggrid (garray u)) (offs a (1 # 2) (goff (garray u))) f1) /\
  (exists w, backward_difference u a = Ok w /\ within (M / 24 * hstep (ggrid (garray u)) a ^ 2) w (ggrid (garray u)) (offs a (- 1 # 2) (goff (garray u))) f1) /\
  (exists w, central_difference u a = Ok w /\ within (M / 6 * hstep (ggrid (garray u)) a ^ 2) w (ggrid (garray u)) (goff (garray u)) f1).
Proof. intros u a f f1 M Hu Ha Hf HS B P1. split; [apply (@fwd_within u a f f1 M) | split; [apply (@bwd_within u a f f1 M) | apply (@ctr_within u a f f1 M)]]; assumption. Qed.
(** ** Laplacian *)
Lemma nsum_abs n F : Rabs (nsum n F) <= nsum n (fun a => Rabs (F a)).
Proof. induction n as [|n IH]; [rewrite !nsum_0, Rabs_R0; lra|]. rewrite !nsum_S. eapply Rle_trans; [apply Rabs_triang|]. lra. Qed.
(* @prop C80 Laplacian. Under the same conditions with derivatives up to fourth order bounded by M, laplacian is within M (h_1^2 + ... + h_d^2) / 12 of the sum of the second partial derivatives of f at the points of the variable. *)
Lemma laplacian_second_order_lem : forall (u : gvar) (f : list R -> R) (f1 f2 : nat -> list R -> R) (M : R),
  periodic_field u -> box_periodic (ggrid (garray u)) f -> samples (garray u) f -> bounded_derivatives (gndim (ggrid (garray u))) 4 M f ->
  (forall a, (a < gndim (ggrid (garray u)))%nat -> partial_derivative (gndim (ggrid (garray u))) a f (f1 a) /\ partial_derivative (gndim (ggrid (garray u))) a (f1 a) (f2 a)) ->
  exists w, laplacian u = Ok w /\ within (M / 12 * h2 (ggrid (garray u))) w (ggrid (garray u)) (goff (garray u)) (fun x => nsum (gndim (ggrid (garray u))) (fun a => f2 a x)).
Proof.
  intros u f f1 f2 M Hu Hf HS B HP. destruct (laplacian_spec_lem Hu) as (w & E & (A1 & A2 & A3 & A4)). exists w. split; [exact E|]. split; [exact A1|]. split; [exact A2|]. split; [exact A3|]. intros ix Hix. rewrite A4 by exact Hix.
  set (g := ggrid (garray u)) in *. set (d := gndim g) in *. pose proof (inb_length _ _ Hix) as Hl. rewrite <- nsum_minus. eapply Rle_trans; [apply nsum_abs|]. unfold h2. rewrite <- nsum_scal. apply nsum_le. intros a Ha.
  unfold next, prev. rewrite !(pv_pt Hu Hf HS) by (unfold shiftix; rewrite ?upd_length; exact Hl). fold g. rewrite !point_shift by assumption. replace (IZR 1 * hstep g a) with (hstep g a) by ring. replace (IZR (-1) * hstep g a) with (- hstep g a) by ring.
  set (x := point g (goff (garray u)) ix). assert (Hx : length x = d) by apply point_length. set (h := hstep g a). assert (Hh : h <> 0) by (apply step_nz; [apply Hu | exact Ha]).
  destruct (HP a Ha) as (P1 & P2). pose proof (bd_partial (bd_partial B Ha P1) Ha P2) as B2. destruct (proj2 B2 a Ha) as (f3 & P3 & B3). destruct (proj2 B3 a Ha) as (f4 & P4 & B4).
  pose proof (@centred2 (fun t => f (moved_along a t x)) _ _ _ _ M 0 h (partial_der x P1 Ha Hx) (partial_der x P2 Ha Hx) (partial_der x P3 Ha Hx) (partial_der x P4 Ha Hx)) as C. cbv beta in C.
  specialize (C ltac:(intros t; apply (proj1 B4); rewrite mv_length; exact Hx)). rewrite Rplus_0_l, Rminus_0_l, mv_0 in C.
  set (X := f (moved_along a h x) - 2 * f x + f (moved_along a (- h) x)) in *. replace (X / (h * h) - f2 a x) with ((X - h ^ 2 * f2 a x) * / (h ^ 2)) by (field; exact Hh).
  assert (Hp : 0 < h ^ 2) by nra. rewrite Rabs_mult, (Rabs_right (/ h ^ 2)) by (left; apply Rinv_0_lt_compat; exact Hp).
  apply Rle_trans with (M / 12 * h ^ 4 * / h ^ 2); [apply Rmult_le_compat_r; [left; apply Rinv_0_lt_compat; exact Hp | exact C]|]. apply Req_le. field. exact Hh.
Qed.


(** ** Calculus of partial derivatives *)
Lemma partial_plus d a f f' h h' : partial_derivative d a f f' -> partial_derivative d a h h' -> partial_derivative d a (fun x => f x + h x) (fun x => f' x + h' x).
Proof. intros A B x Hx. apply (@derivable_pt_lim_plus (fun t => f (moved_along a t x)) (fun t => h (moved_along a t x))); [apply A | apply B]; exact Hx. Qed.
Lemma partial_scal d a c f f' : partial_derivative d a f f' -> partial_derivative d a (fun x => c * f x) (fun x => c * f' x).
Proof. intros A x Hx. apply (@derivable_pt_lim_scal (fun t => f (moved_along a t x))). apply A; exact Hx. Qed.
Lemma partial_mult d a f f' h h' : partial_derivative d a f f' -> partial_derivative d a h h' -> partial_derivative d a (fun x => f x * h x) (fun x => f' x * h x + f x * h' x).
Proof.
  intros A B x Hx. pose proof (@derivable_pt_lim_mult (fun t => f (moved_along a t x)) (fun t => h (moved_along a t x)) 0 _ _ (A x Hx) (B x Hx)) as P. cbv beta in P. rewrite mv_0 in P. exact P.
Qed.
Lemma partial_moved d a b s f f' : (a < d)%nat -> (b < d)%nat -> partial_derivative d b f f' -> partial_derivative d b (fun x => f (moved_along a s x)) (fun x => f' (moved_along a s x)).
Proof.
  intros Ha Hb P x Hx eps He. destruct (P (moved_along a s x) ltac:(rewrite mv_length; exact Hx) eps He) as (dl & Hd). exists dl. intros t Ht Ht2. specialize (Hd t Ht Ht2).
  assert (C : forall r, moved_along a s (moved_along b r x) = moved_along b r (moved_along a s x)).
  { intros r. destruct (Nat.eq_dec a b) as [->|N]; [rewrite !mv_mv by lia; f_equal; ring | apply mv_comm; exact N]. }
  rewrite !C. exact Hd.
Qed.
Lemma bd_weaken d k : forall M N f, M <= N -> bounded_derivatives d k M f -> bounded_derivatives d k N f.
Proof.
  induction k as [|k IH]; intros M N f L [B D]; (split; [intros x Hx; eapply Rle_trans; [apply B; exact Hx | exact L]|]); [exact I|].
  intros a Ha. destruct (D a Ha) as (f' & P & B'). exists f'. split; [exact P | apply (IH M); assumption].
Qed.
Lemma bd_plus d k : forall M N f h, bounded_derivatives d k M f -> bounded_derivatives d k N h -> bounded_derivatives d k (M + N) (fun x => f x + h x).
Proof.
  induction k as [|k IH]; intros M N f h [B D] [B' D']; (split; [intros x Hx; eapply Rle_trans; [apply Rabs_triang | specialize (B x Hx); specialize (B' x Hx); lra]|]); [exact I|].
  intros a Ha. destruct (D a Ha) as (f' & P & Q). destruct (D' a Ha) as (h' & P' & Q'). exists (fun x => f' x + h' x). split; [apply partial_plus; assumption | apply IH; assumption].
Qed.
Lemma bd_mult d k : forall M N f h, bounded_derivatives d k M f -> bounded_derivatives d k N h -> bounded_derivatives d k (2 ^ k * (M * N)) (fun x => f x * h x).
Proof.
  induction k as [|k IH]; intros M N f h Bf Bh; pose proof (@bd_pos d _ M f Bf) as M0; pose proof (@bd_pos d _ N h Bh) as N0; pose proof Bf as [B D]; pose proof Bh as [B' D'].
  - split; [|exact I]. intros x Hx. rewrite Rabs_mult. cbn [pow]. rewrite Rmult_1_l. apply Rmult_le_compat; try apply Rabs_pos; auto.
  - assert (P2 : 1 <= 2 ^ S k) by (apply pow_R1_Rle; lra). split.
    + intros x Hx. rewrite Rabs_mult. apply Rle_trans with (M * N); [apply Rmult_le_compat; try apply Rabs_pos; auto|]. assert (0 <= M * N) by (apply Rmult_le_pos; assumption). nra.
    + intros a Ha. destruct (D a Ha) as (f' & P & Q). destruct (D' a Ha) as (h' & P' & Q'). exists (fun x => f' x * h x + f x * h' x). split; [apply partial_mult; assumption|].
      replace (2 ^ S k * (M * N)) with (2 ^ k * (M * N) + 2 ^ k * (M * N)) by (cbn [pow]; ring). apply bd_plus; apply IH; try assumption; apply bd_pred; assumption.
Qed.
Lemma bd_zero d k M : 0 <= M -> bounded_derivatives d k M (fun _ => 0).
Proof.
  intros H. induction k as [|k IH]; (split; [intros x _; rewrite Rabs_R0; exact H|]); [exact I|]. intros a _. exists (fun _ => 0). split; [intros x _; apply derivable_pt_lim_const | exact IH].
Qed.

(** ** Linear interpolation as an operator on functions of space *)
Section Smear.
Variable d : nat.
(** values at distance - th h and (1 - th) h, weighted so that the mean position is the point itself *)
Definition smear (a : nat) (th h : R) (f : list R -> R) (x : list R) : R := (1 - th) * f (moved_along a (- th * h) x) + th * f (moved_along a ((1 - th) * h) x).
Lemma smear_partial a b th h f f' : (a < d)%nat -> (b < d)%nat -> partial_derivative d b f f' -> partial_derivative d b (smear a th h f) (smear a th h f').
Proof. intros Ha Hb P. unfold smear. apply partial_plus; apply partial_scal; apply (@partial_moved d); assumption. Qed.
Lemma smear_le a th h f M : 0 <= th <= 1 -> (forall x, length x = d -> Rabs (f x) <= M) -> forall x, length x = d -> Rabs (smear a th h f x) <= M.
Proof.
  intros T B x Hx. unfold smear. pose proof (B (moved_along a (- th * h) x) ltac:(rewrite mv_length; exact Hx)) as B1. pose proof (B (moved_along a ((1 - th) * h) x) ltac:(rewrite mv_length; exact Hx)) as B2.
  eapply Rle_trans; [apply Rabs_triang|]. rewrite !Rabs_mult, (Rabs_right (1 - th)), (Rabs_right th) by lra. nra.
Qed.
Lemma smear_bd a th h k : (a < d)%nat -> 0 <= th <= 1 -> forall M f, bounded_derivatives d k M f -> bounded_derivatives d k M (smear a th h f).
Proof.
  intros Ha T. induction k as [|k IH]; intros M f [B D]; (split; [apply smear_le; assumption|]); [exact I|]. intros b Hb. destruct (D b Hb) as (f' & P & Q). exists (smear a th h f'). split; [apply smear_partial; assumption | apply IH; exact Q].
Qed.
Lemma smear_near a th h M f : (a < d)%nat -> 0 <= th <= 1 -> bounded_derivatives d 2 M f -> forall x, length x = d -> Rabs (smear a th h f x - f x) <= M / 8 * h ^ 2.
Proof.
  intros Ha T [_ D] x Hx. destruct (D a Ha) as (f1 & P1 & [_ D1]). destruct (D1 a Ha) as (f2 & P2 & [B2 _]).
  pose proof (@lerp_error (fun t => f (moved_along a t x)) _ _ M (- th * h) h th (partial_der x P1 Ha Hx) (partial_der x P2 Ha Hx)) as L. cbv beta in L.
  specialize (L ltac:(intros t; apply B2; rewrite mv_length; exact Hx) T). replace (- th * h + th * h) with 0 in L by ring. rewrite mv_0 in L. replace (- th * h + h) with ((1 - th) * h) in L by ring. exact L.
Qed.
(** along axes 0, ..., m-1 *)
Fixpoint smears (th h : nat -> R) (m : nat) (f : list R -> R) : list R -> R :=
  match m with O => f | S m' => smear m' (th m') (h m') (smears th h m' f) end.
Variables (th h : nat -> R).
Hypothesis T : forall a, 0 <= th a <= 1.
Lemma smears_partial m b f f' : (m <= d)%nat -> (b < d)%nat -> partial_derivative d b f f' -> partial_derivative d b (smears th h m f) (smears th h m f').
Proof. intros Hm Hb P. induction m as [|m IH]; [exact P|]. cbn [smears]. apply smear_partial; [lia | exact Hb | apply IH; lia]. Qed.
Lemma smears_bd m k M f : (m <= d)%nat -> bounded_derivatives d k M f -> bounded_derivatives d k M (smears th h m f).
Proof. intros Hm B. induction m as [|m IH]; [exact B|]. cbn [smears]. apply smear_bd; [lia | apply T | apply IH; lia]. Qed.
Lemma smears_near m M f : (m <= d)%nat -> bounded_derivatives d 2 M f -> forall x, length x = d -> Rabs (smears th h m f x - f x) <= M / 8 * nsum m (fun a => h a ^ 2).
Proof.
  intros Hm B. induction m as [|m IH]; intros x Hx; cbn [smears]; [rewrite nsum_0; replace (f x - f x) with 0 by ring; rewrite Rabs_R0; lra|].
  rewrite nsum_S. pose proof (@smear_near m (th m) (h m) M (smears th h m f) ltac:(lia) (T m) (@smears_bd m 2 M f ltac:(lia) B) x Hx) as A. specialize (IH ltac:(lia) x Hx).
  replace (smear m (th m) (h m) (smears th h m f) x - f x) with ((smear m (th m) (h m) (smears th h m f) x - smears th h m f x) + (smears th h m f x - f x)) by ring.
  eapply Rle_trans; [apply Rabs_triang|]. lra.
Qed.
End Smear.
(** ** The interpolation weights *)
Definition cellfrac (q : Q) : R := Q2R (q - inject_Z (Qfloor q)).
Lemma cellfrac_range q : 0 <= cellfrac q <= 1.
Proof.
  unfold cellfrac. pose proof (Qfloor_le q) as L. pose proof (Qlt_floor q) as U. split.
  - replace 0 with (Q2R 0) by (unfold Q2R; cbn; field). apply Qreals.Qle_Rle. Lqa.lra.
  - replace 1 with (Q2R 1) by (unfold Q2R; cbn; field). apply Qreals.Qle_Rle. rewrite inject_Z_plus in U. change (inject_Z 1) with 1%Q in U. Lqa.lra.
Qed.
Lemma Q2R_floor q : Q2R q = IZR (Qfloor q) + cellfrac q.
Proof. unfold cellfrac. rewrite Qreals.Q2R_minus. unfold Q2R at 3. cbn. field. Qed.
Section Lerp.
Variables (g : grid) (o o' : list Q) (f : list R -> R).
Let d := gndim g.
Let q a := (nth a o' 0 - nth a o 0)%Q.
Let th a := cellfrac (q a).
Let h a := hstep g a.
Hypothesis (Ho : length o = d) (Ho' : length o' = d).
Fixpoint walk (m : nat) (x : list R) : list R := match m with O => x | S m' => moved_along m' (Q2R (q m') * h m') (walk m' x) end.
Lemma walk_length m x : length (walk m x) = length x.
Proof. induction m as [|m IH]; [reflexivity|]. cbn [walk]. rewrite mv_length. exact IH. Qed.
Lemma walk_mv m b t x : (m <= b)%nat -> walk m (moved_along b t x) = moved_along b t (walk m x).
Proof. induction m as [|m IH]; intros Hb; [reflexivity|]. cbn [walk]. rewrite IH by lia. apply mv_comm. lia. Qed.
Lemma lerp_smears m F : (m <= d)%nat -> (forall ix, length ix = d -> F ix = f (point g o ix)) -> forall ix, length ix = d -> lerp m o o' F ix = smears th h m f (walk m (point g o ix)).
Proof.
  intros Hm HF. induction m as [|m IH]; intros ix Hix; [apply HF; exact Hix|]. cbn [lerp smears walk]. unfold lerp_axis, smear. fold (q m). fold (cellfrac (q m)). fold (th m).
  assert (Hs : forall k, length (shiftix m k ix) = d) by (intros k; unfold shiftix; rewrite upd_length; exact Hix).
  rewrite !IH by (try lia; apply Hs). rewrite !point_shift by (try assumption; fold d; lia). rewrite !walk_mv by lia. rewrite !mv_mv by (rewrite walk_length, point_length; fold d; lia). fold (h m).
  assert (E1 : Q2R (q m) * h m + - th m * h m = IZR (Qfloor (q m)) * h m) by (rewrite (Q2R_floor (q m)); unfold th; ring).
  assert (E2 : Q2R (q m) * h m + (1 - th m) * h m = IZR (Qfloor (q m) + 1) * h m) by (rewrite plus_IZR, (Q2R_floor (q m)); unfold th; ring).
  rewrite E1, E2. reflexivity.
Qed.
Lemma walk_nth m x a : (m <= d)%nat -> length x = d -> (a < d)%nat -> nth a (walk m x) 0 = nth a x 0 + (if (a <? m)%nat then Q2R (q a) * h a else 0).
Proof.
  intros Hm Hx Ha. induction m as [|m IH]; [cbn; ring|]. cbn [walk]. unfold moved_along. specialize (IH ltac:(lia)). destruct (Nat.eq_dec a m) as [->|N].
  - rewrite nth_upd_same by (rewrite walk_length; lia). rewrite IH. rewrite (proj2 (Nat.ltb_ge m m)) by lia. rewrite (proj2 (Nat.ltb_lt m (S m))) by lia. ring.
  - rewrite nth_upd_other by auto. rewrite IH. replace (a <? S m)%nat with (a <? m)%nat; [reflexivity|]. destruct (a <? m)%nat eqn:E; symmetry; [apply Nat.ltb_lt in E; apply Nat.ltb_lt; lia | apply Nat.ltb_ge in E; apply Nat.ltb_ge; lia].
Qed.
Lemma walk_point ix : walk d (point g o ix) = point g o' ix.
Proof.
  apply (list_ext_nth 0); [rewrite walk_length, !point_length; reflexivity|]. intros a Ha. rewrite walk_length, point_length in Ha. fold d in Ha. rewrite walk_nth by (try apply point_length; auto). rewrite (proj2 (Nat.ltb_lt a d) Ha). rewrite !point_nth by exact Ha.
  unfold coord, q. rewrite Qreals.Q2R_minus. fold (h a). ring.
Qed.
Definition smoothed : list R -> R := smears th h d f.
Lemma lerp_smoothed F ix : (forall ix, length ix = d -> F ix = f (point g o ix)) -> length ix = d -> lerp d o o' F ix = smoothed (point g o' ix).
Proof. intros HF Hix. rewrite (@lerp_smears d F (le_n d) HF) by exact Hix. rewrite walk_point. reflexivity. Qed.
Lemma smoothed_near M : bounded_derivatives d 2 M f -> forall x, length x = d -> Rabs (smoothed x - f x) <= M / 8 * h2 g.
Proof. intros B x Hx. apply (@smears_near d th h ltac:(intros; apply cellfrac_range) d M f (le_n d) B x Hx). Qed.
Lemma smoothed_bd k M : bounded_derivatives d k M f -> bounded_derivatives d k M smoothed.
Proof. apply (@smears_bd d th h); [intros; apply cellfrac_range | apply Nat.le_refl]. Qed.
End Lerp.
Lemma smoothed_partial g o o' b f f' : (b < gndim g)%nat -> partial_derivative (gndim g) b f f' -> partial_derivative (gndim g) b (smoothed g o o' f) (smoothed g o o' f').
Proof. intros Hb P. unfold smoothed. apply (@smears_partial (gndim g)); [lia | exact Hb | exact P]. Qed.

(* @prop C80 Linear interpolation. On every grid in any dimension, for a periodic variable holding the values of a smooth function f, periodic in the box, with derivatives up to second order bounded by M, linear interpolation to any other offset (however far) is within M (h_1^2 + ... + h_d^2) / 8 of f at the new points, and keeps the boundary conditions. *)
Lemma linear_interpolation_second_order_lem : forall (c : gvar) (o' : list Q) (f : list R -> R) (M : R),
  periodic_field c -> length o' = gndim (ggrid (garray c)) -> box_periodic (ggrid (garray c)) f -> samples (garray c) f ->
  bounded_derivatives (gndim (ggrid (garray c))) 2 M f ->
  exists w, linear_interp c o' = Ok w /\ gbc w = gbc c /\ within (M / 8 * h2 (ggrid (garray c))) (garray w) (ggrid (garray c)) o' f.
Proof.
  intros c o' f M Hc Ho' Hf HS B. destruct (linear_interpolation_spec_lem o' Hc Ho') as (w & E & Eb & (A1 & A2 & A3 & A4)). exists w. split; [exact E|]. split; [exact Eb|]. split; [exact A1|]. split; [exact A2|]. split; [exact A3|].
  intros ix Hix. rewrite A4 by exact Hix. pose proof (inb_length _ _ Hix) as Hl. rewrite (@lerp_smoothed (ggrid (garray c)) (goff (garray c)) o' f (pf_off Hc) Ho') by (try exact Hl; intros jx Hj; apply (pv_pt Hc Hf HS); exact Hj). apply smoothed_near; [exact B | apply point_length].
Qed.

(** ** Advection *)
Section Transport.
Variables (g : grid) (a : nat) (fc fv c1 v1 : list R -> R) (Mc Mv : R) (oc oc' ov ov' : list Q).
Let d := gndim g.
Hypothesis (Ha : (a < d)%nat) (Bc : bounded_derivatives d 3 Mc fc) (Bv : bounded_derivatives d 3 Mv fv) (Pc : partial_derivative d a fc c1) (Pv : partial_derivative d a fv v1).
Let A := smoothed g oc oc' fc.
Let W := smoothed g ov ov' fv.
Lemma abs_prod x y X Y : Rabs x <= X -> Rabs y <= Y -> Rabs (x * y) <= X * Y.
Proof. intros. rewrite Rabs_mult. apply Rmult_le_compat; try apply Rabs_pos; assumption. Qed.
Lemma flux_quotient h x : h <> 0 -> length x = d ->
  Rabs ((A (moved_along a (h / 2) x) * W (moved_along a (h / 2) x) - A (moved_along a (- (h / 2)) x) * W (moved_along a (- (h / 2)) x)) / h - (v1 x * fc x + fv x * c1 x)) <= Mv * Mc * (h ^ 2 / 3 + h2 g / 2).
Proof.
  intros Hh Hx. pose proof (@smoothed_partial g oc oc' a fc c1 Ha Pc) as PA. pose proof (@smoothed_partial g ov ov' a fv v1 Ha Pv) as PW. fold A in PA. fold W in PW. set (A1 := smoothed g oc oc' c1) in *. set (W1 := smoothed g ov ov' v1) in *.
  assert (BA : bounded_derivatives d 3 Mc A) by (apply smoothed_bd; exact Bc). assert (BW : bounded_derivatives d 3 Mv W) by (apply smoothed_bd; exact Bv).
  pose proof (@bd_mult d 3 Mc Mv A W BA BW) as BP. pose proof (@centred_quotient d a _ _ _ x Ha Hx (partial_mult PA PW) (h / 2) BP ltac:(lra)) as C. cbv beta in C. replace (2 * (h / 2)) with h in C by field.
  assert (Bc1 : bounded_derivatives d 2 Mc c1) by (apply (@bd_partial d 2 Mc fc c1 a Bc Ha Pc)). assert (Bv1 : bounded_derivatives d 2 Mv v1) by (apply (@bd_partial d 2 Mv fv v1 a Bv Ha Pv)).
  assert (N1 : Rabs (A x - fc x) <= Mc / 8 * h2 g) by (apply smoothed_near; [apply bd_pred; exact Bc | exact Hx]).
  assert (N2 : Rabs (W x - fv x) <= Mv / 8 * h2 g) by (apply smoothed_near; [apply bd_pred; exact Bv | exact Hx]).
  assert (N3 : Rabs (A1 x - c1 x) <= Mc / 8 * h2 g) by (apply smoothed_near; [exact Bc1 | exact Hx]).
  assert (N4 : Rabs (W1 x - v1 x) <= Mv / 8 * h2 g) by (apply smoothed_near; [exact Bv1 | exact Hx]).
  assert (BA0 : Rabs (A x) <= Mc) by (apply (proj1 BA); exact Hx). assert (BW0 : Rabs (W x) <= Mv) by (apply (proj1 BW); exact Hx).
  assert (B1 : Rabs (c1 x) <= Mc) by (apply (proj1 Bc1); exact Hx). assert (B2 : Rabs (v1 x) <= Mv) by (apply (proj1 Bv1); exact Hx).
  match type of C with Rabs (?X - ?Y) <= _ => set (Q0 := X) in *; set (D0 := Y) in * end.
  replace (Q0 - (v1 x * fc x + fv x * c1 x)) with ((Q0 - D0) + (((A1 x - c1 x) * W x + (W x - fv x) * c1 x) + ((W1 x - v1 x) * A x + (A x - fc x) * v1 x))) by (unfold D0; ring).
  eapply Rle_trans; [apply Rabs_triang|]. pose proof (@abs_prod _ _ _ _ N3 BW0) as T1. pose proof (@abs_prod _ _ _ _ N2 B1) as T2. pose proof (@abs_prod _ _ _ _ N4 BA0) as T3. pose proof (@abs_prod _ _ _ _ N1 B2) as T4.
  pose proof (Rabs_triang ((A1 x - c1 x) * W x + (W x - fv x) * c1 x) ((W1 x - v1 x) * A x + (A x - fc x) * v1 x)) as T5. pose proof (Rabs_triang ((A1 x - c1 x) * W x) ((W x - fv x) * c1 x)) as T6. pose proof (Rabs_triang ((W1 x - v1 x) * A x) ((A x - fc x) * v1 x)) as T7.
  replace (Mv * Mc * (h ^ 2 / 3 + h2 g / 2)) with (2 ^ 3 * (Mc * Mv) / 6 * (h / 2) ^ 2 + ((Mc / 8 * h2 g * Mv + Mv / 8 * h2 g * Mc) + (Mv / 8 * h2 g * Mc + Mc / 8 * h2 g * Mv))) by field. lra.
Qed.
End Transport.
(* @prop C80 Advection. On every grid in any dimension: for a periodic scalar c and a periodic velocity v (each component at any offset, e.g. staggered or collocated, with homogeneous boundary conditions) that hold the values of smooth box-periodic functions whose derivatives up to third order are bounded by Mc and Mv, advect_linear is within Mv Mc (1/3 + d/2) (h_1^2 + ... + h_d^2) of minus the divergence of the flux v c at the points of c. *)
Lemma advection_second_order_lem : forall (c : gvar) (v : list gvar) (dt : R) (fc : list R -> R) (fv c1 v1 : nat -> list R -> R) (Mc Mv : R),
  periodic_field c -> (0 < gndim (ggrid (garray c)))%nat -> periodic_vec (ggrid (garray c)) v -> homogeneous_vec v ->
  box_periodic (ggrid (garray c)) fc -> samples (garray c) fc -> bounded_derivatives (gndim (ggrid (garray c))) 3 Mc fc ->
  smooth_velocity (ggrid (garray c)) 3 Mv v fv ->
  (forall a, (a < gndim (ggrid (garray c)))%nat -> partial_derivative (gndim (ggrid (garray c))) a fc (c1 a) /\ partial_derivative (gndim (ggrid (garray c))) a (fv a) (v1 a)) ->
  exists w, advect_linear c v dt = Ok w /\
    within (Mv * Mc * (1 / 3 + INR (gndim (ggrid (garray c))) / 2) * h2 (ggrid (garray c))) w (ggrid (garray c)) (goff (garray c))
      (fun x => - nsum (gndim (ggrid (garray c))) (fun a => v1 a x * fc x + fv a x * c1 a x)).
Proof.
  intros c v dt fc fv c1 v1 Mc Mv Hc Hd Hv Hh Hf HS Bc HV HP. destruct (@advect_linear_flux_form_lem c v dt Hc Hd Hv Hh) as (w & E & (A1 & A2 & A3 & A4)). exists w. split; [exact E|]. split; [exact A1|]. split; [exact A2|]. split; [exact A3|].
  intros ix Hix. rewrite A4 by exact Hix. pose proof (inb_length _ _ Hix) as Hl. set (g := ggrid (garray c)) in *. set (o := goff (garray c)) in *. set (d := gndim g) in *. unfold outflow. fold d.
  match goal with |- Rabs (- ?X - - ?Y) <= _ => replace (- X - - Y) with (- (X - Y)) by ring end. rewrite Rabs_Ropp, <- nsum_minus. eapply Rle_trans; [apply nsum_abs|].
  replace (Mv * Mc * (1 / 3 + INR d / 2) * h2 g) with (nsum d (fun a => Mv * Mc * (hstep g a ^ 2 / 3 + h2 g / 2))).
  2:{ rewrite nsum_scal, nsum_plus, nsum_const. rewrite (@nsum_ext d (fun i => hstep g i ^ 2 / 3) (fun i => / 3 * hstep g i ^ 2)) by (intros; field). rewrite nsum_scal. unfold h2. fold d. field. }
  apply nsum_le. intros a Ha. assert (Ho : length o = d) by apply (pf_off Hc).
  destruct (nth_error v a) as [u|] eqn:Eu; [|apply nth_error_None in Eu; destruct Hv as (HL & _); fold d in HL; lia].
  destruct (HV a u Eu) as (Hfv & HSv & Bv). destruct (HP a Ha) as (Pc & Pv). assert (Hu : periodic_field u /\ ggrid (garray u) = g) by (destruct Hv as (_ & Hall); rewrite Forall_forall in Hall; apply Hall; apply (nth_error_In _ _ Eu)). destruct Hu as (Hu & Hgu).
  set (oa := offs a (1 # 2) o). assert (Hoa : length oa = d) by (unfold oa, offs; rewrite upd_length; exact Ho).
  assert (Hprev : length (prev a ix) = d) by (unfold prev, shiftix; rewrite upd_length; exact Hl).
  assert (LA : forall jx, length jx = d -> lerp d o oa (pval (garray c)) jx = smoothed g o oa fc (point g oa jx)) by (intros jx Hj; apply lerp_smoothed; try assumption; intros kx Hk; apply (pv_pt Hc Hf HS); exact Hk).
  assert (LW : forall jx, length jx = d -> face_velocity c v a jx = smoothed g (goff (garray u)) oa (fv a) (point g oa jx)).
  { intros jx Hj. unfold face_velocity. rewrite Eu. fold g d o oa. apply lerp_smoothed; try assumption; [destruct Hu as ((_ & _ & L) & _); rewrite Hgu in L; exact L|]. intros kx Hk. rewrite <- Hgu. rewrite <- Hgu in Hfv. apply (pv_pt Hu Hfv HSv). rewrite Hgu. exact Hk. }
  rewrite !LA, !LW by assumption. unfold oa. rewrite !point_offs by assumption. unfold prev. rewrite point_shift by assumption. rewrite mv_mv by (rewrite point_length; exact Ha).
  set (h := hstep g a). replace (Q2R (1 # 2) * h) with (h / 2) by (unfold Q2R; cbn; field). replace (IZR (-1) * h + h / 2) with (- (h / 2)) by field.
  apply flux_quotient; try assumption; [apply step_nz; [apply (pf_wfg Hc) | exact Ha] | apply point_length].
Qed.


(* @prop C80 Divergence. On every grid in any dimension, for a staggered periodic velocity (component i half a cell above the points o along axis i) holding the values of smooth box-periodic functions with derivatives up to third order bounded by M, divergence is within M (h_1^2 + ... + h_d^2) / 24 of the divergence of the flow at the points o. *)
Lemma divergence_second_order_lem : forall (g : grid) (o : list Q) (v : list gvar) (fv v1 : nat -> list R -> R) (M : R),
  (0 < gndim g)%nat -> periodic_vec g v -> length o = gndim g -> face_aligned o v -> smooth_velocity g 3 M v fv ->
  (forall a, (a < gndim g)%nat -> partial_derivative (gndim g) a (fv a) (v1 a)) ->
  exists w, divergence v = Ok w /\ within (M / 24 * h2 g) w g o (fun x => nsum (gndim g) (fun a => v1 a x)).
Proof.
  intros g o v fv v1 M Hd Hv Ho Hf HV HP. destruct (divergence_spec_lem Hd Hv Ho Hf) as (w & E & (A1 & A2 & A3 & A4)). exists w. split; [exact E|]. split; [exact A1|]. split; [exact A2|]. split; [exact A3|]. intros ix Hix. rewrite A4 by exact Hix. pose proof (inb_length _ _ Hix) as Hl.
  rewrite <- nsum_minus. eapply Rle_trans; [apply nsum_abs|]. unfold h2. rewrite <- nsum_scal. apply nsum_le. intros a Ha.
  destruct (nth_error v a) as [u|] eqn:Eu; [|apply nth_error_None in Eu; destruct Hv as (HL & _); lia]. destruct (HV a u Eu) as (Hfv & HSv & Bv). specialize (Hf a u Eu).
  assert (Hu : periodic_field u /\ ggrid (garray u) = g) by (destruct Hv as (_ & Hall); rewrite Forall_forall in Hall; apply Hall; apply (nth_error_In _ _ Eu)). destruct Hu as (Hu & Hgu). unfold vval. rewrite Eu.
  assert (Pt : forall jx, length jx = gndim g -> pval (garray u) jx = fv a (moved_along a (hstep g a / 2) (point g o jx))).
  { intros jx Hj. rewrite <- Hgu in Hfv. rewrite (pv_pt Hu Hfv HSv) by (rewrite Hgu; exact Hj). rewrite Hgu, (point_off_eq _ _ Hf), point_offs by assumption. f_equal. f_equal. unfold Q2R. cbn. field. }
  rewrite !Pt by (try exact Hl; unfold prev, shiftix; rewrite upd_length; exact Hl). unfold prev. rewrite point_shift by assumption. rewrite mv_mv by (rewrite point_length; exact Ha). set (h := hstep g a).
  assert (Hh : h <> 0) by (apply step_nz; [rewrite <- Hgu; apply (pf_wfg Hu) | exact Ha]). replace (IZR (-1) * h + h / 2) with (- (h / 2)) by field.
  pose proof (@centred_quotient (gndim g) a (fv a) (v1 a) M (point g o ix) Ha (point_length g o ix) (HP a Ha) (h / 2) Bv ltac:(lra)) as C. replace (2 * (h / 2)) with h in C by field. replace (M / 24 * h ^ 2) with (M / 6 * (h / 2) ^ 2) by field. exact C.
Qed.
Lemma within_same e w w' g o f : same_field w w' -> within e w' g o f -> within e w g o f.
Proof.
  intros (S1 & S2 & (S3 & S4)) (A1 & A2 & A3 & A4). split; [congruence|]. split; [eapply off_eq_trans; [exact S2 | exact A2]|]. split; [congruence|]. intros ix Hix. rewrite S4 by (rewrite S3, A3; exact Hix). apply A4. exact Hix.
Qed.
Lemma within_le e e' w g o f : e <= e' -> within e w g o f -> within e' w g o f.
Proof. intros L (A1 & A2 & A3 & A4). split; [exact A1|]. split; [exact A2|]. split; [exact A3|]. intros ix Hix. eapply Rle_trans; [apply A4; exact Hix | exact L]. Qed.
(* @prop C80 Convection. On every grid in any dimension, for a staggered periodic velocity with homogeneous boundary conditions that holds the values of smooth box-periodic functions with derivatives up to third order bounded by M, convect_linear returns one array per component, within M^2 (1/3 + d/2) (h_1^2 + ... + h_d^2) of minus the divergence of the momentum flux v v_i at the points of component i. *)
Lemma convection_second_order_lem : forall (g : grid) (o : list Q) (v : list gvar) (fv : nat -> list R -> R) (dv : nat -> nat -> list R -> R) (M : R),
  (0 < gndim g)%nat -> periodic_vec g v -> homogeneous_vec v -> length o = gndim g -> face_aligned o v -> smooth_velocity g 3 M v fv ->
  (forall i a, (i < gndim g)%nat -> (a < gndim g)%nat -> partial_derivative (gndim g) a (fv i) (dv i a)) ->
  exists l, convect_linear v = Ok l /\ length l = length v /\
    forall i u w, nth_error v i = Some u -> nth_error l i = Some w ->
      within (M * M * (1 / 3 + INR (gndim g) / 2) * h2 g) w g (goff (garray u))
        (fun x => - nsum (gndim g) (fun a => dv a a x * fv i x + fv a x * dv i a x)).
Proof.
  intros g o v fv dv M Hd Hv Hh Ho Hf HV HP. destruct (@convect_is_advection_lem g o v 0 Hd Hv Hh Ho Hf) as (l & E & HL & H). exists l. split; [exact E|]. split; [exact HL|]. intros i u w Eu Ew. destruct (H i u w Eu Ew) as (w' & E' & Hs).
  assert (Hu : periodic_field u /\ ggrid (garray u) = g) by (destruct Hv as (_ & Hall); rewrite Forall_forall in Hall; apply Hall; apply (nth_error_In _ _ Eu)). destruct Hu as (Hu & Hgu). subst g. set (g := ggrid (garray u)) in *.
  assert (Hi : (i < gndim g)%nat) by (destruct Hv as (L & _); rewrite <- L; apply nth_error_Some; congruence). destruct (HV i u Eu) as (Hfv & HSv & Bv).
  destruct (@advection_second_order_lem u v 0 (fv i) fv (dv i) (fun a => dv a a) M M Hu Hd Hv Hh Hfv HSv Bv HV) as (w2 & E2 & W2); [intros a Ha; split; apply HP; assumption|].
  rewrite E' in E2. assert (w' = w2) by congruence. subst w2. apply (within_same Hs). exact W2.
Qed.
Lemma ok_inj (A : Type) (x y : A) : Ok x = Ok y -> x = y.
Proof. congruence. Qed.
(* @prop C80 Navier-Stokes right-hand side. On every grid in any dimension, for a staggered periodic velocity with homogeneous boundary conditions that holds the values of smooth box-periodic functions with derivatives up to fourth order bounded by M, the explicit terms of the incompressible Navier-Stokes equations (linear convection, viscosity nu, density rho, any forcing that returns the values of a function at the velocity points) are a velocity with the same boundary conditions, within (M^2 (1/3 + d/2) + |nu / rho| M / 12) (h_1^2 + ... + h_d^2) of - div(v v_i) + (nu / rho) laplacian(v_i) + f_i / rho at the points of every component i. *)
Lemma navier_stokes_terms_second_order_lem : forall (g : grid) (o : list Q) (bs : list bcs) (density nu : R) (forcing : list gvar -> result (list garr)) (v : list gvar) (lf : list garr) (fv ff : nat -> list R -> R) (dv ddv : nat -> nat -> list R -> R) (M : R),
  (0 < gndim g)%nat -> periodic_velocity g o bs v -> length o = gndim g -> density <> 0 -> smooth_velocity g 4 M v fv ->
  (forall i a, (i < gndim g)%nat -> (a < gndim g)%nat -> partial_derivative (gndim g) a (fv i) (dv i a) /\ partial_derivative (gndim g) a (dv i a) (ddv i a)) ->
  forcing v = Ok lf -> length lf = length v -> (forall i u w, nth_error v i = Some u -> nth_error lf i = Some w -> within 0 w g (goff (garray u)) (ff i)) ->
  exists l, navier_stokes_explicit_terms density (Some nu) convect_linear diffuse (Some forcing) v = Ok l /\ map gbc l = map gbc v /\
    forall i u w, nth_error v i = Some u -> nth_error l i = Some w ->
      within ((M * M * (1 / 3 + INR (gndim g) / 2) + Rabs (nu / density) * (M / 12)) * h2 g) (garray w) g (goff (garray u))
        (fun x => - nsum (gndim g) (fun a => dv a a x * fv i x + fv a x * dv i a x) + nu / density * nsum (gndim g) (fun a => ddv i a x) + ff i x / density).
Proof.
  intros g o bs rho nu forcing v lf fv ff dv ddv M Hd HVel Ho Hrho HV HP EF HLF HF. pose proof HVel as (Hv & Hh & Hf & _).
  assert (HV3 : smooth_velocity g 3 M v fv) by (intros a u Eu; destruct (HV a u Eu) as (X1 & X2 & X3); split; [exact X1|]; split; [exact X2 | apply bd_pred; exact X3]).
  destruct (@convection_second_order_lem g o v fv dv M Hd Hv Hh Ho Hf HV3) as (lc & Ec & HLc & Hc); [intros i a Hi Ha; apply HP; assumption|].
  assert (Hall : forall i u, nth_error v i = Some u -> periodic_field u /\ ggrid (garray u) = g /\ (i < gndim g)%nat).
  { intros i u Eu. destruct Hv as (L & A). rewrite Forall_forall in A. destruct (A u (nth_error_In _ _ Eu)) as (P & Q). split; [exact P|]. split; [exact Q|]. rewrite <- L. apply nth_error_Some. congruence. }
  set (C := fun i ix => get (gdata (nth i lc dga)) ix). set (Fo := fun i ix => get (gdata (nth i lf dga)) ix). set (D := fun i ix => nu / rho * lapF g (vval v i) ix).
  destruct (@explicit_terms_combination_lem g rho (Some nu) convect_linear diffuse (Some forcing) v lc C D Fo) as (l & El & Eb & (HLl & Hl)).
  - intros u Hin. destruct (In_nth_error _ _ Hin) as (i & Eu). destruct (Hall i u Eu) as (Hu & Hg & _). destruct Hu as (_ & Hb). unfold perbc in Hb. rewrite Hg in Hb. rewrite Hb. apply repeat_length.
  - intros _. exact Hrho.
  - exact Ec.
  - split; [exact HLc|]. intros i u w Eu Ew. destruct (Hc i u w Eu Ew) as (A1 & A2 & A3 & A4). split; [exact A1|]. split; [exact A2|]. split; [exact A3|]. intros ix Hix. unfold C. rewrite (nth_error_nth lc i dga Ew). reflexivity.
  - intros nu' i u En Eu. assert (nu' = nu) by congruence. subst nu'. destruct (Hall i u Eu) as (_ & _ & Hi). destruct (diffuse_prep (nu / rho) HVel Hi) as (w & Ew & Hw). rewrite (nth_error_nth v i dgv Eu) in *. exists w. split; [exact Ew | exact Hw].
  - intros f Ef. assert (f = forcing) by congruence. subst f. exists lf. split; [exact EF|]. split; [exact HLF|]. intros i u w Eu Ew. destruct (HF i u w Eu Ew) as (A1 & A2 & A3 & A4). split; [exact A1|]. split; [exact A2|]. split; [exact A3|]. intros ix Hix. unfold Fo. rewrite (nth_error_nth lf i dga Ew). reflexivity.
  - exists l. split; [exact El|]. split; [exact Eb|]. intros i u w Eu Ew. destruct (Hall i u Eu) as (Hu & Hg & Hi). destruct (Hl i u (garray w) Eu) as (A1 & A2 & A3 & A4); [rewrite nth_error_map, Ew; reflexivity|].
    split; [exact A1|]. split; [exact A2|]. split; [exact A3|]. intros ix Hix. rewrite A4 by exact Hix. set (x := point g (goff (garray u)) ix).
    assert (Lv : length lf = gndim g /\ length lc = gndim g) by (destruct Hv as (L & _); lia). destruct Lv as (Lf & Lc).
    destruct (Hc i u (nth i lc dga) Eu (nth_error_nth' lc dga (eq_ind_r (fun k => (i < k)%nat) Hi Lc))) as (_ & _ & _ & B1). specialize (B1 ix Hix). fold x in B1. fold (C i ix) in B1.
    destruct (HF i u (nth i lf dga) Eu (nth_error_nth' lf dga (eq_ind_r (fun k => (i < k)%nat) Hi Lf))) as (_ & _ & _ & B2). specialize (B2 ix Hix). fold x in B2. fold (Fo i ix) in B2. apply Rle_antisym in B2; [|apply Rabs_pos]. assert (B2' : Fo i ix = ff i x) by (destruct (Req_dec (Fo i ix - ff i x) 0) as [Z|Z]; [lra | apply Rabs_no_R0 in Z; congruence]).
    destruct (HV i u Eu) as (Hfv & HSv & Bv). rewrite <- Hg in Hfv, Bv.
    destruct (@laplacian_second_order_lem u (fv i) (dv i) (ddv i) M Hu Hfv HSv Bv) as (lw & El1 & (_ & _ & _ & B3)); [rewrite Hg; intros a Ha; apply HP; assumption|]. destruct (laplacian_spec_lem Hu) as (lw' & El2 & (_ & _ & _ & B4)). rewrite El1 in El2. apply ok_inj in El2. subst lw'. rewrite Hg in B3, B4. specialize (B3 ix Hix). specialize (B4 ix Hix). rewrite B4 in B3. fold x in B3.
    set (L := nsum (gndim g) (fun ax => (pval (garray u) (next ax ix) - 2 * pval (garray u) ix + pval (garray u) (prev ax ix)) / (hstep g ax * hstep g ax))) in *.
    assert (ED : D i ix = nu / rho * L). { unfold D, lapF, L, vval. rewrite Eu. f_equal. apply nsum_ext. intros a Ha. unfold next, prev, Rsqr. assert (Hnz : hstep g a <> 0) by (apply step_nz; [rewrite <- Hg; apply (pf_wfg Hu) | exact Ha]). field. exact Hnz. }
    rewrite ED, B2'. match goal with |- Rabs (C i ix + nu / rho * L + ff i x / rho - (?X + nu / rho * ?Y + ff i x / rho)) <= _ => set (TX := X) in *; set (TY := Y) in *; replace (C i ix + nu / rho * L + ff i x / rho - (TX + nu / rho * TY + ff i x / rho)) with ((C i ix - TX) + nu / rho * (L - TY)) by ring end.
    eapply Rle_trans; [apply Rabs_triang|]. rewrite Rabs_mult. assert (T2 : Rabs (nu / rho) * Rabs (L - TY) <= Rabs (nu / rho) * (M / 12 * h2 g)) by (apply Rmult_le_compat_l; [apply Rabs_pos | exact B3]). lra.
Qed.

(** ** Upwind *)
Section Up.
Variables (d a : nat) (fc c1 W : list R -> R) (Mc Mv h : R) (x : list R).
Hypothesis (Ha : (a < d)%nat) (Hx : length x = d) (Bc : bounded_derivatives d 2 Mc fc) (Pc : partial_derivative d a fc c1) (BW : bounded_derivatives d 1 Mv W) (Hh : h <> 0).
Let at_ (f : list R -> R) (t : R) := f (moved_along a t x).
Lemma at_lip f N s t : bounded_derivatives d 1 N f -> Rabs (at_ f t - at_ f s) <= N * Rabs (t - s).
Proof. intros [_ D]. destruct (D a Ha) as (f1 & P1 & [B1 _]). apply (@lip (at_ f) (at_ f1)); [exact (partial_der x P1 Ha Hx) | intros r; apply B1; rewrite mv_length; exact Hx]. Qed.
(** half the jump of c across the face at distance t *)
Let jump (t : R) := (at_ fc (t + h / 2) - at_ fc (t - h / 2)) / 2.
Lemma jump_le t : Rabs (jump t) <= Mc * Rabs h / 2.
Proof.
  unfold jump. pose proof (@at_lip fc Mc (t - h / 2) (t + h / 2) (bd_pred Bc)) as L. replace (t + h / 2 - (t - h / 2)) with h in L by field. unfold Rdiv at 1. rewrite Rabs_mult, (Rabs_right (/ 2)) by lra. lra.
Qed.
Lemma jump_lip s t : Rabs (jump t - jump s) <= Mc * Rabs h / 2 * Rabs (t - s).
Proof.
  assert (D0 : der (at_ fc) (at_ c1)) by exact (partial_der x Pc Ha Hx). assert (B1 : bounded_derivatives d 1 Mc c1) by (apply (@bd_partial d 1 Mc fc c1 a Bc Ha Pc)).
  assert (DJ : der jump (fun t => / 2 * (at_ c1 (h / 2 + t) - at_ c1 (- (h / 2) + t)))).
  { apply (@der_ext (fun t => / 2 * (at_ fc (h / 2 + t) - at_ fc (- (h / 2) + t))) _ (fun t => / 2 * (at_ c1 (h / 2 + t) - at_ c1 (- (h / 2) + t)))); [intros r; unfold jump; replace (h / 2 + r) with (r + h / 2) by ring; replace (- (h / 2) + r) with (r - h / 2) by ring; field | reflexivity|]. apply der_scal. apply der_minus; apply der_shift; exact D0. }
  apply (lip _ _ DJ). intros r. rewrite Rabs_mult, (Rabs_right (/ 2)) by lra. pose proof (@at_lip c1 Mc (- (h / 2) + r) (h / 2 + r) B1) as L. replace (h / 2 + r - (- (h / 2) + r)) with h in L by field. lra.
Qed.
Lemma up_quotient : Rabs ((Rabs (at_ W (h / 2)) * jump (h / 2) - Rabs (at_ W (- (h / 2))) * jump (- (h / 2))) / h) <= Mv * Mc * Rabs h.
Proof.
  set (m := - (h / 2)). set (p := h / 2). pose proof (@at_lip W Mv m p BW) as L1. pose proof (jump_lip m p) as L2. replace (p - m) with h in L1, L2 by (unfold m, p; field).
  assert (L3 : Rabs (Rabs (at_ W p) - Rabs (at_ W m)) <= Mv * Rabs h) by (eapply Rle_trans; [apply Rabs_triang_inv2 | exact L1]).
  assert (L4 : Rabs (at_ W m) <= Mv) by (apply (proj1 BW); rewrite mv_length; exact Hx). pose proof (jump_le p) as L5.
  assert (Hp : 0 < Rabs h) by (apply Rabs_pos_lt; exact Hh). unfold Rdiv. rewrite Rabs_mult, Rabs_inv.
  replace (Rabs (at_ W p) * jump p - Rabs (at_ W m) * jump m) with ((Rabs (at_ W p) - Rabs (at_ W m)) * jump p + Rabs (at_ W m) * (jump p - jump m)) by ring.
  pose proof (@abs_prod _ _ _ _ L3 L5) as T1. assert (L4' : Rabs (Rabs (at_ W m)) <= Mv) by (rewrite Rabs_Rabsolu; exact L4). pose proof (@abs_prod _ _ _ _ L4' L2) as T2.
  apply Rle_trans with ((Mv * Rabs h * (Mc * Rabs h / 2) + Mv * (Mc * Rabs h / 2 * Rabs h)) * / Rabs h).
  - apply Rmult_le_compat_r; [left; apply Rinv_0_lt_compat; exact Hp|]. eapply Rle_trans; [apply Rabs_triang|]. apply Rplus_le_compat; assumption.
  - apply Req_le. field. lra.
Qed.
End Up.
(* @prop C80 Upwind advection. Under the conditions of the advection claim, advect_upwind is first-order accurate: within Mv Mc ((1/3 + d/2) (h_1^2 + ... + h_d^2) + |h_1| + ... + |h_d|) of minus the divergence of the flux v c at the points of c, wherever the velocity changes sign. *)
Lemma upwind_first_order_lem : forall (c : gvar) (v : list gvar) (dt : R) (fc : list R -> R) (fv c1 v1 : nat -> list R -> R) (Mc Mv : R),
  periodic_field c -> (0 < gndim (ggrid (garray c)))%nat -> periodic_vec (ggrid (garray c)) v -> homogeneous_vec v ->
  box_periodic (ggrid (garray c)) fc -> samples (garray c) fc -> bounded_derivatives (gndim (ggrid (garray c))) 3 Mc fc ->
  smooth_velocity (ggrid (garray c)) 3 Mv v fv ->
  (forall a, (a < gndim (ggrid (garray c)))%nat -> partial_derivative (gndim (ggrid (garray c))) a fc (c1 a) /\ partial_derivative (gndim (ggrid (garray c))) a (fv a) (v1 a)) ->
  exists w, advect_upwind c v dt = Ok w /\
    within (Mv * Mc * ((1 / 3 + INR (gndim (ggrid (garray c))) / 2) * h2 (ggrid (garray c)) + nsum (gndim (ggrid (garray c))) (fun a => Rabs (hstep (ggrid (garray c)) a)))) w (ggrid (garray c)) (goff (garray c))
      (fun x => - nsum (gndim (ggrid (garray c))) (fun a => v1 a x * fc x + fv a x * c1 a x)).
Proof.
  intros c v dt fc fv c1 v1 Mc Mv Hc Hd Hv Hh Hf HS Bc HV HP. destruct (@advect_upwind_flux_form_lem c v dt Hc Hd Hv Hh) as (w & E & (A1 & A2 & A3 & A4)). exists w. split; [exact E|]. split; [exact A1|]. split; [exact A2|]. split; [exact A3|].
  intros ix Hix. rewrite A4 by exact Hix. pose proof (inb_length _ _ Hix) as Hl.
  destruct (@advection_second_order_lem c v dt fc fv c1 v1 Mc Mv Hc Hd Hv Hh Hf HS Bc HV HP) as (wl & El & (_ & _ & _ & BL)). destruct (@advect_linear_flux_form_lem c v dt Hc Hd Hv Hh) as (wl' & El' & (_ & _ & _ & A5)). rewrite El in El'. apply ok_inj in El'. subst wl'. specialize (BL ix Hix). rewrite A5 in BL by exact Hix.
  set (g := ggrid (garray c)) in *. set (o := goff (garray c)) in *. set (d := gndim g) in *. set (FV := fun a jx => face_velocity c v a jx) in *. set (pc := pval (garray c)) in *.
  match goal with |- Rabs (- outflow g ?FU ix - ?TT) <= _ => set (TGT := TT) in *; set (FUp := FU) in * end. match type of BL with Rabs (- outflow g ?FL ix - _) <= _ => set (FLin := FL) in * end.
  replace (- outflow g FUp ix - TGT) with ((- outflow g FLin ix - TGT) + (outflow g FLin ix - outflow g FUp ix)) by ring. eapply Rle_trans; [apply Rabs_triang|].
  assert (BD : Rabs (outflow g FLin ix - outflow g FUp ix) <= Mv * Mc * nsum d (fun a => Rabs (hstep g a))); [|lra].
  unfold outflow. fold d. rewrite <- nsum_minus. eapply Rle_trans; [apply nsum_abs|]. rewrite <- nsum_scal. apply nsum_le. intros a Ha. assert (Ho : length o = d) by apply (pf_off Hc).
  destruct (nth_error v a) as [u|] eqn:Eu; [|apply nth_error_None in Eu; destruct Hv as (HL & _); fold d in HL; lia].
  destruct (HV a u Eu) as (Hfv & HSv & Bv). destruct (HP a Ha) as (Pc & Pv). assert (Hu : periodic_field u /\ ggrid (garray u) = g) by (destruct Hv as (_ & Hall); rewrite Forall_forall in Hall; apply Hall; apply (nth_error_In _ _ Eu)). destruct Hu as (Hu & Hgu).
  set (oa := offs a (1 # 2) o). assert (Hoa : length oa = d) by (unfold oa, offs; rewrite upd_length; exact Ho). set (h := hstep g a).
  assert (LW : forall jx, length jx = d -> face_velocity c v a jx = smoothed g (goff (garray u)) oa (fv a) (point g oa jx)).
  { intros jx Hj. unfold face_velocity. rewrite Eu. fold g d o oa. apply lerp_smoothed; try assumption; [destruct Hu as ((_ & _ & L) & _); rewrite Hgu in L; exact L|]. intros kx Hk. rewrite <- Hgu. rewrite <- Hgu in Hfv. apply (pv_pt Hu Hfv HSv). rewrite Hgu. exact Hk. }
  set (W := smoothed g (goff (garray u)) oa (fv a)) in *. assert (BW : bounded_derivatives d 1 Mv W) by (apply smoothed_bd; apply bd_pred; apply bd_pred; exact Bv).
  assert (KD : forall jx, length jx = d -> FLin a jx - FUp a jx = Rabs (W (moved_along a (h / 2) (point g o jx))) * ((pc (next a jx) - pc jx) / 2)).
  { intros jx Hj. unfold FLin, FUp. rewrite (@lerp_half (gshape g) _ _ _ a _ (off_eq_refl _)) by (try exact Hj; fold o; rewrite Ho; exact Ha). fold d. rewrite (proj2 (Nat.ltb_lt a d) Ha). unfold FV. rewrite LW by exact Hj. assert (EO : point g oa jx = moved_along a (h / 2) (point g o jx)) by (unfold oa; rewrite point_offs by assumption; f_equal; unfold Q2R, h; cbn; field). rewrite !EO.
    set (y := W (moved_along a (h / 2) (point g o jx))). unfold Rabs. destruct (Rlt_dec 0 y) as [P|P]; destruct (Rcase_abs y) as [N|N]; try lra; try field. assert (y = 0) by lra. rewrite H. field. }
  assert (Hp : length (prev a ix) = d) by (unfold prev, shiftix; rewrite upd_length; exact Hl).
  replace ((FLin a ix - FLin a (prev a ix)) / h - (FUp a ix - FUp a (prev a ix)) / h) with (((FLin a ix - FUp a ix) - (FLin a (prev a ix) - FUp a (prev a ix))) / h) by (unfold Rdiv; ring).
  rewrite !KD by assumption. assert (PT : forall jx, length jx = d -> pc jx = fc (point g o jx)) by (intros jx Hj; apply (pv_pt Hc Hf HS); exact Hj).
  assert (Hn : forall k, length (shiftix a k ix) = d) by (intros k; unfold shiftix; rewrite upd_length; exact Hl).
  assert (NP : next a (prev a ix) = ix). { unfold next, prev, shiftix. rewrite nth_upd_same by (rewrite Hl; exact Ha). rewrite upd_upd_same. replace (nth a ix 0 + -1 + 1)%Z with (nth a ix 0%Z) by ring. apply upd_nth_same. }
  rewrite NP, !PT by (try exact Hl; apply Hn). unfold next, prev. rewrite !point_shift by assumption. fold h. set (x := point g o ix). assert (Hx : length x = d) by apply point_length.
  rewrite mv_mv by (rewrite Hx; exact Ha). replace (IZR (-1) * h + h / 2) with (- (h / 2)) by field. replace (IZR 1 * h) with (h / 2 + h / 2) by field. replace (IZR (-1) * h) with (- (h / 2) - h / 2) by field.
  assert (Hnz : h <> 0) by (apply step_nz; [apply (pf_wfg Hc) | exact Ha]).
  pose proof (@up_quotient d a fc (c1 a) W Mc Mv h x Ha Hx (bd_pred Bc) Pc BW Hnz) as UQ. cbv beta zeta in UQ. replace (h / 2 - h / 2) with 0 in UQ by ring. replace (- (h / 2) + h / 2) with 0 in UQ by ring. rewrite mv_0 in UQ. exact UQ.
Qed.

(** ** Examples: the Taylor-Green vortex on an 8 x 8 grid of the box [0, 2 pi]^2 *)
Definition tgg : grid := mkgrid [8%nat; 8%nat] [PI / 4; PI / 4] [(0, 2 * PI); (0, 2 * PI)].
Definition wave (p q : R) (x : list R) : R := sin (nth 0%nat x 0 + p) * sin (nth 1%nat x 0 + q).
Definition sampled (o : list Q) (f : list R -> R) : gvar := mkgv (mkga (mkarr [8%nat; 8%nat] (fun ix => f (point tgg o ix))) o tgg) (mkbc (repeat (Periodic, Periodic) 2) (repeat (Some 0, Some 0) 2) true).
Lemma tgg_wf : wfg tgg.
Proof. pose proof PI_RGT_0. repeat split; try (repeat constructor; cbn; lra || lia). Qed.
Lemma sampled_pf o f : length o = 2%nat -> periodic_field (sampled o f).
Proof. intros Ho. split; [split; [exact tgg_wf | split; [reflexivity | exact Ho]] | reflexivity]. Qed.
Lemma sampled_samples o f : samples (garray (sampled o f)) f.
Proof. intros ix _. reflexivity. Qed.
Lemma wave_bound p q x : Rabs (wave p q x) <= 1.
Proof. unfold wave. rewrite <- (Rmult_1_l 1). apply abs_prod; apply Rabs_le; apply SIN_bound. Qed.
Lemma sin_line c s : derivable_pt_lim (fun t => sin (c + t + s)) 0 (sin (c + (s + PI / 2))).
Proof.
  replace (sin (c + (s + PI / 2))) with (cos (c + s + 0)) by (rewrite cos_sin; f_equal; ring).
  apply (@der_ext (fun t => sin (c + s + t)) _ (fun t => cos (c + s + t)) (fun t => cos (c + s + t))); [intros; f_equal; ring | reflexivity |]. apply (@der_shift sin cos). intros t. apply derivable_pt_lim_sin.
Qed.
Lemma wave_partial0 p q : partial_derivative 2 0 (wave p q) (wave (p + PI / 2) q).
Proof.
  intros [|x [|y [|z l]]] Hx; cbn in Hx; try lia. unfold wave, moved_along, upd. cbn [nth]. pose proof (@derivable_pt_lim_scal _ (sin (y + q)) 0 _ (sin_line x p)) as D. unfold mult_real_fct in D.
  rewrite Rmult_comm in D. apply (@derivable_pt_lim_ext (fun t => sin (y + q) * sin (x + t + p))); [intros t; cbn; ring | exact D].
Qed.
Lemma wave_partial1 p q : partial_derivative 2 1 (wave p q) (wave p (q + PI / 2)).
Proof.
  intros [|x [|y [|z l]]] Hx; cbn in Hx; try lia. unfold wave, moved_along, upd. cbn [nth]. pose proof (@derivable_pt_lim_scal _ (sin (x + p)) 0 _ (sin_line y q)) as D. unfold mult_real_fct in D.
  apply (@derivable_pt_lim_ext (fun t => sin (x + p) * sin (y + t + q))); [intros t; cbn; ring | exact D].
Qed.
Definition dwave (a : nat) (p q : R) : list R -> R := match a with O => wave (p + PI / 2) q | _ => wave p (q + PI / 2) end.
Lemma wave_partial a p q : (a < 2)%nat -> partial_derivative 2 a (wave p q) (dwave a p q).
Proof. intros Ha. destruct a as [|[|a]]; [apply wave_partial0 | apply wave_partial1 | lia]. Qed.
Lemma wave_bd k : forall p q, bounded_derivatives 2 k 1 (wave p q).
Proof.
  induction k as [|k IH]; intros p q; (split; [intros x _; apply wave_bound|]); [exact I|]. intros a Ha. exists (dwave a p q). split; [apply wave_partial; exact Ha|]. destruct a; apply IH.
Qed.
Lemma wave_periodic p q : box_periodic tgg (wave p q).
Proof.
  intros x y _ _ H. destruct (H 0%nat ltac:(cbn; lia)) as (k0 & E0). destruct (H 1%nat ltac:(cbn; lia)) as (k1 & E1). unfold wave. rewrite E0, E1. cbn [nth gshape tgg hstep gstep].
  unfold hstep. cbn [nth gstep tgg]. replace (INR 8) with 8 by (cbn; lra).
  replace (nth 0 x 0 + IZR k0 * (8 * (PI / 4)) + p) with (nth 0 x 0 + p + 2 * PI * IZR k0) by field. replace (nth 1 x 0 + IZR k1 * (8 * (PI / 4)) + q) with (nth 1 x 0 + q + 2 * PI * IZR k1) by field. rewrite !sin_periods. reflexivity.
Qed.
(** cos x sin y and - sin x cos y, staggered *)
Definition tgphase (a : nat) : R * R := match a with O => (PI / 2, 0) | _ => (PI, PI / 2) end.
Definition tgf (a : nat) : list R -> R := wave (fst (tgphase a)) (snd (tgphase a)).
Definition tgv : list gvar := [sampled [1; 1 # 2]%Q (tgf 0); sampled [1 # 2; 1]%Q (tgf 1)].
Definition tgc : gvar := sampled [1 # 2; 1 # 2]%Q (wave 0 0).
Lemma tgv_pv : periodic_vec tgg tgv.
Proof. split; [reflexivity|]. constructor; [|constructor; [|constructor]]; (split; [apply sampled_pf; reflexivity | reflexivity]). Qed.
Lemma tgv_hom : homogeneous_vec tgv.
Proof. repeat constructor. Qed.
Lemma tgv_face : face_aligned [1 # 2; 1 # 2]%Q tgv.
Proof. intros [|[|[|i]]] u E; cbn in E; try discriminate E; injection E as <-; repeat constructor. Qed.
Lemma tgv_smooth k : smooth_velocity tgg k 1 tgv tgf.
Proof. intros [|[|[|i]]] u E; cbn in E; try discriminate E; injection E as <-; (split; [apply wave_periodic | split; [apply sampled_samples | apply wave_bd]]). Qed.
(* @ex *)
Lemma difference_quotients_second_order_ex_lem : periodic_field tgc /\ (0 < gndim (ggrid (garray tgc)))%nat /\ box_periodic (ggrid (garray tgc)) (wave 0 0) /\ samples (garray tgc) (wave 0 0) /\
  bounded_derivatives 2 3 1 (wave 0 0) /\ partial_derivative 2 0 (wave 0 0) (wave (0 + PI / 2) 0).
Proof. split; [apply sampled_pf; reflexivity|]. split; [cbn; lia|]. split; [apply wave_periodic|]. split; [apply sampled_samples|]. split; [apply wave_bd | apply wave_partial0]. Qed.
(* @ex *)
Lemma laplacian_second_order_ex_lem : periodic_field tgc /\ box_periodic (ggrid (garray tgc)) (wave 0 0) /\ samples (garray tgc) (wave 0 0) /\ bounded_derivatives 2 4 1 (wave 0 0) /\
  (forall a, (a < 2)%nat -> partial_derivative 2 a (wave 0 0) (dwave a 0 0) /\ exists f2, partial_derivative 2 a (dwave a 0 0) f2).
Proof.
  split; [apply sampled_pf; reflexivity|]. split; [apply wave_periodic|]. split; [apply sampled_samples|]. split; [apply wave_bd|]. intros a Ha. split; [apply wave_partial; exact Ha|]. destruct a as [|a]; cbn [dwave]; eexists; apply wave_partial; exact Ha.
Qed.
(* @ex *)
Lemma linear_interpolation_second_order_ex_lem : periodic_field tgc /\ length [1; 7 # 3]%Q = gndim (ggrid (garray tgc)) /\ box_periodic (ggrid (garray tgc)) (wave 0 0) /\ samples (garray tgc) (wave 0 0) /\ bounded_derivatives 2 2 1 (wave 0 0).
Proof. split; [apply sampled_pf; reflexivity|]. split; [reflexivity|]. split; [apply wave_periodic|]. split; [apply sampled_samples | apply wave_bd]. Qed.
Lemma tg_setup : periodic_field tgc /\ (0 < gndim tgg)%nat /\ periodic_vec tgg tgv /\ homogeneous_vec tgv /\ box_periodic tgg (wave 0 0) /\ samples (garray tgc) (wave 0 0) /\ bounded_derivatives 2 3 1 (wave 0 0) /\ smooth_velocity tgg 3 1 tgv tgf /\
  (forall a, (a < 2)%nat -> partial_derivative 2 a (wave 0 0) (dwave a 0 0) /\ partial_derivative 2 a (tgf a) (dwave a (fst (tgphase a)) (snd (tgphase a)))).
Proof.
  split; [apply sampled_pf; reflexivity|]. split; [cbn; lia|]. split; [exact tgv_pv|]. split; [exact tgv_hom|]. split; [apply wave_periodic|]. split; [apply sampled_samples|]. split; [apply wave_bd|]. split; [apply tgv_smooth|]. intros a Ha. split; apply wave_partial; exact Ha.
Qed.
(* @ex *)
Lemma advection_second_order_ex_lem : periodic_field tgc /\ (0 < gndim tgg)%nat /\ periodic_vec tgg tgv /\ homogeneous_vec tgv /\ box_periodic tgg (wave 0 0) /\ samples (garray tgc) (wave 0 0) /\ bounded_derivatives 2 3 1 (wave 0 0) /\ smooth_velocity tgg 3 1 tgv tgf /\
  (forall a, (a < 2)%nat -> partial_derivative 2 a (wave 0 0) (dwave a 0 0) /\ partial_derivative 2 a (tgf a) (dwave a (fst (tgphase a)) (snd (tgphase a)))).
Proof. exact tg_setup. Qed.
(* @ex *)
Lemma upwind_first_order_ex_lem : periodic_field tgc /\ (0 < gndim tgg)%nat /\ periodic_vec tgg tgv /\ homogeneous_vec tgv /\ box_periodic tgg (wave 0 0) /\ samples (garray tgc) (wave 0 0) /\ bounded_derivatives 2 3 1 (wave 0 0) /\ smooth_velocity tgg 3 1 tgv tgf /\
  (forall a, (a < 2)%nat -> partial_derivative 2 a (wave 0 0) (dwave a 0 0) /\ partial_derivative 2 a (tgf a) (dwave a (fst (tgphase a)) (snd (tgphase a)))).
Proof. exact tg_setup. Qed.
(* @ex *)
Lemma divergence_second_order_ex_lem : (0 < gndim tgg)%nat /\ periodic_vec tgg tgv /\ length [1 # 2; 1 # 2]%Q = gndim tgg /\ face_aligned [1 # 2; 1 # 2]%Q tgv /\ smooth_velocity tgg 3 1 tgv tgf /\
  (forall a, (a < 2)%nat -> partial_derivative 2 a (tgf a) (dwave a (fst (tgphase a)) (snd (tgphase a)))).
Proof. split; [cbn; lia|]. split; [exact tgv_pv|]. split; [reflexivity|]. split; [exact tgv_face|]. split; [apply tgv_smooth|]. intros a Ha. apply wave_partial. exact Ha. Qed.
(* @ex *)
Lemma convection_second_order_ex_lem : (0 < gndim tgg)%nat /\ periodic_vec tgg tgv /\ homogeneous_vec tgv /\ length [1 # 2; 1 # 2]%Q = gndim tgg /\ face_aligned [1 # 2; 1 # 2]%Q tgv /\ smooth_velocity tgg 3 1 tgv tgf /\
  (forall i a, (i < 2)%nat -> (a < 2)%nat -> partial_derivative 2 a (tgf i) (dwave a (fst (tgphase i)) (snd (tgphase i)))).
Proof. split; [cbn; lia|]. split; [exact tgv_pv|]. split; [exact tgv_hom|]. split; [reflexivity|]. split; [exact tgv_face|]. split; [apply tgv_smooth|]. intros i a _ Ha. apply wave_partial. exact Ha. Qed.
(* @ex *)
Lemma navier_stokes_terms_second_order_ex_lem : (0 < gndim tgg)%nat /\ periodic_velocity tgg [1 # 2; 1 # 2]%Q (map gbc tgv) tgv /\ smooth_velocity tgg 4 1 tgv tgf /\
  (forall i a, (i < 2)%nat -> (a < 2)%nat -> partial_derivative 2 a (tgf i) (dwave a (fst (tgphase i)) (snd (tgphase i))) /\ exists f2, partial_derivative 2 a (dwave a (fst (tgphase i)) (snd (tgphase i))) f2) /\
  exists lf, Ok (map garray tgv) = Ok lf /\ length lf = length tgv /\ forall i u w, nth_error tgv i = Some u -> nth_error lf i = Some w -> within 0 w tgg (goff (garray u)) (tgf i).
Proof.
  split; [cbn; lia|]. split; [split; [exact tgv_pv|]; split; [exact tgv_hom|]; split; [exact tgv_face | reflexivity]|]. split; [apply tgv_smooth|]. split.
  - intros i a _ Ha. split; [apply wave_partial; exact Ha|]. destruct a as [|a]; cbn [dwave]; eexists; apply wave_partial; exact Ha.
  - exists (map garray tgv). split; [reflexivity|]. split; [reflexivity|]. intros i u w Eu Ew. rewrite nth_error_map, Eu in Ew. cbn in Ew. injection Ew as <-. destruct (@tgv_smooth 0 i u Eu) as (_ & S & _).
    assert (Hg : ggrid (garray u) = tgg /\ shp (gdata (garray u)) = gshape tgg) by (destruct i as [|[|[|i]]]; cbn in Eu; try discriminate Eu; injection Eu as <-; split; reflexivity). destruct Hg as (Hg & Hs).
    split; [exact Hg|]. split; [apply off_eq_refl|]. split; [exact Hs|]. intros ix Hix. rewrite <- Hg in Hix |- *. rewrite S by exact Hix. replace (tgf i _ - tgf i _) with 0 by ring. rewrite Rabs_R0. lra.
Qed.
