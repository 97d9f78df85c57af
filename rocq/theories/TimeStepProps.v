(** * Properties C35, C36, C38 (and the defining equations of C37): time stepping *)
From Verif Require Import Prelude NdArr Grids_model Spec Boundaries_model FD_model PRep FDProofs TimeStep_model Func_model FuncProps.
Set Implicit Arguments.
Local Open Scope nat_scope.

(** ** Specification vocabulary *)

(** Rows long enough for an explicit tableau: row [i] of [a] (stage [i+1]) has at least [i+1] entries. *)
Definition full_rows (extra : nat) (a : list (list R)) : Prop :=
  forall i, i < length a -> i + 1 + extra <= length (nth i a []).
Definition coef (a : list (list R)) (i j : nat) : R := nth j (nth (i - 1) a []) 0%R.
Definition weight (b : list R) (j : nat) : R := nth j b 0%R.

(** The stages of the projected Runge-Kutta method of tableau (a, b). *)
Definition rk_stages {X} (a : list (list R)) (n : nat) (F P : vec X -> vec X) (dt : R) (u0 : vec X) (U : nat -> vec X) : Prop :=
  U 0 = u0 /\
  forall i, 1 <= i < n -> U i = P (fun x => u0 x + dt * nsum i (fun j => coef a i j * F (U j) x))%R.

(** The stages of the implicit-explicit Runge-Kutta method. *)
Definition imex_stages {X} (t : imex_tableau) (F G : vec X -> vec X) (Ginv : vec X -> R -> vec X) (dt : R) (y0 : vec X) (Y : nat -> vec X) : Prop :=
  Y 0 = y0 /\
  forall i, 1 <= i < length (ib_ex t) ->
    Y i = Ginv (fun x => y0 x + dt * nsum i (fun j => coef (ia_ex t) i j * F (Y j) x)
                              + dt * nsum i (fun j => coef (ia_im t) i j * G (Y j) x))%R (dt * coef (ia_im t) i i)%R.

(** [implicit_solve(y, h)] solves [x - h * G(x) = y]. *)
Definition solves {X} (G : vec X -> vec X) (Ginv : vec X -> R -> vec X) (h : R) : Prop :=
  forall y x, (Ginv y h x - h * G (Ginv y h) x = y x)%R.

Definition linear {X} (L : vec X -> vec X) : Prop :=
  (forall u v, L (vadd u v) = vadd (L u) (L v)) /\ (forall c u, L (vscal c u) = vscal c (L u)).

(** ** Auxiliary lemmas *)
Lemma foldM_app {A B} (f : A -> B -> result A) a l1 l2 :
  foldM f a (l1 ++ l2) = let* a' := foldM f a l1 in foldM f a' l2.
Proof. revert a; induction l1 as [|x l1 IH]; intros a; simpl; [reflexivity|]. destruct (f a x); simpl; auto. Qed.

Lemma foldM_seq_snoc {A} (f : A -> nat -> result A) a s n :
  foldM f a (seq s (S n)) = let* a' := foldM f a (seq s n) in f a' (s + n).
Proof. rewrite seq_S, foldM_app. destruct (foldM f a (seq s n)); simpl; [|reflexivity]. destruct (f a0 (s + n)); reflexivity. Qed.

Lemma nz_true c : nz c = true <-> c <> 0%R.
Proof. unfold nz. destruct (Req_EM_T c 0); split; congruence. Qed.
Lemma nz_false c : nz c = false <-> c = 0%R.
Proof. unfold nz. destruct (Req_EM_T c 0); split; congruence. Qed.

Lemma vec_ext {X} (u v : vec X) : (forall x, u x = v x) -> u = v.
Proof. apply functional_extensionality. Qed.

Lemma wsum_spec {X} (row : list R) (ks : list (option (vec X))) (K : nat -> vec X) n :
  n <= length row -> (forall j, j < n -> nth j row 0%R <> 0%R -> nth_error ks j = Some (Some (K j))) ->
  wsum row ks n = Ok (fun x => nsum n (fun j => nth j row 0 * K j x)%R).
Proof.
  unfold wsum. induction n as [|n IH]; intros HL HK.
  - reflexivity.
  - rewrite foldM_seq_snoc. rewrite IH by (try lia; intros; apply HK; auto; lia). cbn [bind plus].
    rewrite (nth_error_nth' row 0%R) by lia.
    destruct (nz (nth n row 0%R)) eqn:E.
    + apply nz_true in E. rewrite HK by auto. f_equal. apply vec_ext; intros x. rewrite nsum_S. reflexivity.
    + apply nz_false in E. f_equal. apply vec_ext; intros x. rewrite nsum_S, E. lra.
Qed.

(** Course-of-values recursion. *)
Lemma cov_rec {V} (S : nat -> (nat -> V) -> V) :
  (forall i U U', (forall j, j < i -> U j = U' j) -> S i U = S i U') -> (V -> exists U, forall i, U i = S i U).
Proof.
  intros HS d.
  set (Uf := fix Uf (fuel : nat) (i : nat) : V := match fuel with O => d | Datatypes.S f => S i (Uf f) end).
  assert (Hir : forall m m' i, i < m -> i < m' -> Uf m i = Uf m' i).
  { induction m as [|m IH]; intros [|m'] i Hm Hm'; try lia. simpl. apply HS. intros j Hj. apply IH; lia. }
  exists (fun i => Uf (Datatypes.S i) i). intros i. change (Uf (Datatypes.S i) i) with (S i (Uf i)).
  apply HS. intros j Hj. apply Hir; lia.
Qed.

Lemma rk_stages_exist {X} a n (F P : vec X -> vec X) dt u0 : exists U, rk_stages a n F P dt u0 U.
Proof.
  destruct (@cov_rec (vec X) (fun i U => if i =? 0 then u0 else P (fun x => u0 x + dt * nsum i (fun j => coef a i j * F (U j) x))%R)) as [U HU].
  - intros i U U' H. destruct (i =? 0); [reflexivity|]. f_equal. apply vec_ext; intros x. do 2 f_equal.
    apply nsum_ext; intros j Hj. rewrite H by auto. reflexivity.
  - exact u0.
  - exists U. split; [rewrite HU; reflexivity|]. intros i Hi. rewrite (HU i) at 1. destruct i; [lia|]. reflexivity.
Qed.

Lemma rk_run {X} (t : tableau) (F P : vec X -> vec X) dt u0 U :
  length (ta t) + 1 = length (tb t) -> full_rows 0 (ta t) -> rk_stages (ta t) (length (tb t)) F P dt u0 U ->
  navier_stokes_rk t F P dt u0 = Ok (P (fun x => u0 x + dt * nsum (length (tb t)) (fun j => weight (tb t) j * F (U j) x))%R).
Proof.
  intros HL Hrow [HU0 HU]. unfold navier_stokes_rk. cbv zeta.
  remember (length (tb t)) as n eqn:En. destruct n as [|n]; [lia|].
  set (body := fun k i => _).
  assert (Hloop : forall m, m <= n -> exists k, foldM body (upd 0 (Some (F u0)) (repeat None (S n))) (seq 1 m) = Ok k /\
            length k = S n /\ forall j, j <= m -> nth_error k j = Some (Some (F (U j)))).
  { induction m as [|m IH]; intros Hm.
    - eexists. split; [reflexivity|]. split; [rewrite upd_length; apply repeat_length|].
      intros j Hj. replace j with 0 by lia. simpl. rewrite HU0. reflexivity.
    - destruct IH as (k & Hk & Hkl & Hkj); [lia|]. rewrite foldM_seq_snoc, Hk. cbn [bind plus]. unfold body at 1.
      replace (S m - 1) with m by lia. rewrite (nth_error_nth' (ta t) []) by lia.
      rewrite (@wsum_spec X _ _ (fun j => F (U j))); [| pose proof (Hrow m); lia | intros j Hj _; apply Hkj; lia].
      cbn [bind]. eexists. split; [reflexivity|]. split; [rewrite upd_length; auto|].
      intros j Hj. rewrite (nth_error_nth' _ None) by (rewrite upd_length; lia). f_equal.
      destruct (Nat.eq_dec j (S m)) as [->|Hne].
      + rewrite nth_upd_same by lia. rewrite (HU (S m)) by lia. unfold coef.
        replace (S m - 1) with m by lia. reflexivity.
      + rewrite nth_upd_other by lia. apply nth_error_nth. apply Hkj; lia. }
  destruct (Hloop n (le_n n)) as (k & Hk & _ & Hkj).
  replace (S n - 1) with n by lia. rewrite Hk. cbn [bind].
  rewrite (@wsum_spec X _ _ (fun j => F (U j))); [| lia | intros j Hj _; apply Hkj; lia].
  cbn [bind]. reflexivity.
Qed.

(* @prop C35 For every Butcher tableau with n stages and long enough rows, every explicit term F, projection P, time step and state, the step function returns exactly P(u0 + dt * sum_j b_j F(u_j)) where u_0 = u0 and u_i = P(u0 + dt * sum_{j<i} a_ij F(u_j)) (zero coefficients included in the sums); these stages always exist. In particular the returned state is in the image of the projection. *)
Lemma rk_step_is_tableau_lem : forall X a b t (F P : vec X -> vec X) dt u0,
  butcher_tableau a b = Ok t -> full_rows 0 a ->
  (exists U, rk_stages a (length b) F P dt u0 U) /\
  (forall U, rk_stages a (length b) F P dt u0 U ->
     navier_stokes_rk t F P dt u0 = Ok (P (fun x => u0 x + dt * nsum (length b) (fun j => weight b j * F (U j) x))%R)) /\
  (exists w, navier_stokes_rk t F P dt u0 = Ok (P w)).
Proof.
  intros X a b t F P dt u0 Ht Hrow. unfold butcher_tableau in Ht.
  destruct (length a + 1 =? length b) eqn:E; cbn [negb] in Ht; [|discriminate]. apply Nat.eqb_eq in E.
  injection Ht as <-. split; [apply rk_stages_exist|]. split.
  - intros U HU. apply (rk_run (mktab a b)); auto.
  - destruct (rk_stages_exist a (length b) F P dt u0) as [U HU]. eexists. apply (rk_run (mktab a b)); eauto.
Qed.
(* @ex *)
Lemma rk_step_is_tableau_ex_lem :
  exists t, butcher_tableau [[(1 / 2)%R]; [0%R; (3 / 4)%R]] [(2 / 9)%R; (1 / 3)%R; (4 / 9)%R] = Ok t /\
    full_rows 0 [[(1 / 2)%R]; [0%R; (3 / 4)%R]].
Proof. eexists. split; [reflexivity|]. intros [|[|i]] Hi; simpl in *; lia. Qed.

(* @prop C35 A tableau is accepted exactly when it has one row of coefficients fewer than it has weights; otherwise ValueError. *)
Lemma butcher_tableau_check_lem : forall a b,
  (is_ok (butcher_tableau a b) <-> length a + 1 = length b) /\
  (length a + 1 <> length b -> butcher_tableau a b = Err EValue).
Proof.
  intros a b. unfold butcher_tableau, is_ok. destruct (Nat.eqb_spec (length a + 1) (length b)) as [E|E]; cbn [negb].
  - split; [split; [auto | intros _; eexists; reflexivity]|]. intros H; contradiction.
  - split; [split; [intros [t Ht]; discriminate | intros H; contradiction]|]. reflexivity.
Qed.
(* @ex *)
Lemma butcher_tableau_check_ex_lem : butcher_tableau [[1%R]] [1%R] = Err EValue /\ is_ok (butcher_tableau [[1%R]] [0%R; 1%R]).
Proof. split; [reflexivity | eexists; reflexivity]. Qed.

(** Stage-by-stage forms of the four named schemes. *)
Lemma ls_ok {X} a b (F P : vec X -> vec X) dt u0 U : length a + 1 = length b -> full_rows 0 a ->
  rk_stages a (length b) F P dt u0 U ->
  make_rk a b F P dt u0 = Ok (P (fun x => u0 x + dt * nsum (length b) (fun j => weight b j * F (U j) x))%R).
Proof.
  intros HL Hr HU. unfold make_rk, butcher_tableau. rewrite (proj2 (Nat.eqb_eq _ _) HL). cbn [negb bind].
  apply (rk_run (mktab a b)); auto.
Qed.

Ltac rows := let i := fresh in let H := fresh in intros i H; cbn [length] in H; do 5 (destruct i as [|i]; [cbn; lia|]); lia.

(* @prop C35 The named schemes are: forward_euler P(u + dt F(u)); midpoint_rk2 P(u + dt F(P(u + dt/2 F(u)))); heun_rk2 P(u + dt/2 (F(u) + F(P(u + dt F(u))))); classic_rk4 the classical fourth-order scheme with a projection after every stage. *)
Lemma rk_named_schemes_lem : forall X (F P : vec X -> vec X) dt u,
  forward_euler F P dt u = Ok (P (fun x => u x + dt * F u x)%R) /\
  midpoint_rk2 F P dt u = Ok (P (fun x => u x + dt * F (P (fun y => u y + dt * (1 / 2 * F u y))) x)%R) /\
  heun_rk2 F P dt u = Ok (P (fun x => u x + dt * (1 / 2 * F u x + 1 / 2 * F (P (fun y => u y + dt * F u y)) x))%R) /\
  (let u1 := P (fun x => u x + dt * (1 / 2 * F u x))%R in
   let u2 := P (fun x => u x + dt * (1 / 2 * F u1 x))%R in
   let u3 := P (fun x => u x + dt * F u2 x)%R in
   classic_rk4 F P dt u = Ok (P (fun x => u x + dt * (1 / 6 * F u x + 1 / 3 * F u1 x + 1 / 3 * F u2 x + 1 / 6 * F u3 x))%R)).
Proof.
  intros X F P dt u.
  assert (Hz : forall (f : vec X) (h : X -> R), (forall x, f x = h x) -> P f = P h) by (intros f h Hf; f_equal; apply vec_ext; exact Hf).
  repeat split.
  - unfold forward_euler. destruct (rk_stages_exist [] 1 F P dt u) as [U HU].
    rewrite (@ls_ok X _ [1%R] F P dt u U); [|reflexivity | rows | exact HU]. f_equal. apply Hz. intros x.
    destruct HU as [HU0 _]. cbn. rewrite HU0. ring.
  - unfold midpoint_rk2. destruct (rk_stages_exist [[(1 / 2)%R]] 2 F P dt u) as [U HU].
    rewrite (@ls_ok X _ [0%R; 1%R] F P dt u U); [|reflexivity | rows | exact HU]. f_equal. apply Hz. intros x.
    destruct HU as [HU0 HU]. assert (H1 := HU 1 ltac:(lia)). clear HU.
    cbn -[Rdiv] in *. rewrite HU0 in *. rewrite H1. replace (P (fun y : X => (u y + dt * (1 / 2 * F u y))%R)) with (P (fun x0 : X => (u x0 + dt * (1 / 2 * F u x0 + 0))%R)); [ring|].
    apply Hz. intros y; ring.
  - unfold heun_rk2. destruct (rk_stages_exist [[1%R]] 2 F P dt u) as [U HU].
    rewrite (@ls_ok X _ [(1 / 2)%R; (1 / 2)%R] F P dt u U); [|reflexivity | rows | exact HU]. f_equal. apply Hz. intros x.
    destruct HU as [HU0 HU]. assert (H1 := HU 1 ltac:(lia)). clear HU.
    cbn -[Rdiv] in *. rewrite HU0 in *. rewrite H1. replace (P (fun y : X => (u y + dt * F u y)%R)) with (P (fun x0 : X => (u x0 + dt * (1 * F u x0 + 0))%R)); [ring|].
    apply Hz. intros y; ring.
  - intros u1 u2 u3. unfold classic_rk4. set (a := [[(1 / 2)%R]; [0%R; (1 / 2)%R]; [0%R; 0%R; 1%R]]).
    destruct (rk_stages_exist a 4 F P dt u) as [U HU].
    rewrite (@ls_ok X _ [(1 / 6)%R; (1 / 3)%R; (1 / 3)%R; (1 / 6)%R] F P dt u U); [|reflexivity | subst a; rows | exact HU].
    destruct HU as [HU0 HU]. assert (H1 := HU 1 ltac:(lia)). assert (H2 := HU 2 ltac:(lia)). assert (H3 := HU 3 ltac:(lia)). clear HU.
    cbn -[Rdiv] in H1, H2, H3. rewrite HU0 in *.
    assert (E1 : U 1 = u1) by (rewrite H1; apply Hz; intros y; ring).
    rewrite E1 in *.
    assert (E2 : U 2 = u2) by (rewrite H2; apply Hz; intros y; ring).
    rewrite E2 in *.
    assert (E3 : U 3 = u3) by (rewrite H3; apply Hz; intros y; ring).
    f_equal. apply Hz. intros x. cbn -[Rdiv]. rewrite HU0, E1, E2, E3. ring.
Qed.
(* @ex *)
Lemma rk_named_schemes_ex_lem :
  heun_rk2 (fun u x => 2 * u x)%R (fun u => u) (1 / 2)%R (fun _ : unit => 3%R) = Ok (fun _ => (15 / 2)%R).
Proof. destruct (rk_named_schemes_lem (fun (u : vec unit) x => 2 * u x)%R (fun u => u) (1 / 2)%R (fun _ => 3%R)) as (_ & _ & -> & _). f_equal. apply vec_ext; intros x. lra. Qed.

(** ** C36: order *)
Definition taylor {X} (A : vec X -> vec X) (dt : R) (p : nat) (u : vec X) : vec X :=
  fun x => nsum (S p) (fun k => dt ^ k / INR (fact k) * Nat.iter k A u x)%R.

Lemma lin_fun {X} (L : vec X -> vec X) : linear L -> forall (u v : vec X) c, L (fun x => u x + c * v x)%R = vadd (L u) (vscal c (L v)).
Proof. intros [H1 H2] u v c. change (fun x => (u x + c * v x)%R) with (vadd u (vscal c v)). rewrite H1, H2. reflexivity. Qed.

Section Lin.
  Context {X : Type} (F P : vec X -> vec X).
  Hypothesis HF : linear F.
  Hypothesis HP : linear P.
  Let A := fun u => P (F u).
  Lemma comp_lin : linear A.
  Proof. destruct HF as [F1 F2], HP as [P1 P2]. split; intros; unfold A; [rewrite F1, P1 | rewrite F2, P2]; reflexivity. Qed.

  Lemma proj_step u v c : P u = u -> P (vadd u (vscal c v)) = vadd u (vscal c (P v)).
  Proof. intros Hu. destruct HP as [P1 P2]. rewrite P1, P2, Hu. reflexivity. Qed.
End Lin.

(* @prop C36 For a linear explicit term F, a linear projection P and a state u with P u = u, the schemes return exactly the Taylor polynomial of exp(dt * PF) applied to u, of degree 1 (forward_euler), 2 (midpoint_rk2, heun_rk2) and 4 (classic_rk4). *)
Lemma rk_taylor_lem : forall X (F P : vec X -> vec X) dt u,
  linear F -> linear P -> P u = u ->
  let A := fun v => P (F v) in
  forward_euler F P dt u = Ok (taylor A dt 1 u) /\
  midpoint_rk2 F P dt u = Ok (taylor A dt 2 u) /\
  heun_rk2 F P dt u = Ok (taylor A dt 2 u) /\
  classic_rk4 F P dt u = Ok (taylor A dt 4 u).
Proof.
  intros X F P dt u HF HP Hu A.
  destruct (rk_named_schemes_lem F P dt u) as (H1 & H2 & H3 & H4).
  assert (HA : linear A) by exact (comp_lin HF HP). destruct HA as [A1 A2].
  assert (HPs : forall v c, P (vadd u (vscal c v)) = vadd u (vscal c (P v))) by (intros; apply proj_step; auto).
  rewrite H1, H2, H3. cbv zeta in H4. rewrite H4. clear H1 H2 H3 H4.
  assert (S1 : forall c (v : vec X), (fun x => u x + dt * (c * v x))%R = vadd u (vscal (dt * c) v)) by (intros; apply vec_ext; intros x; unfold vadd, vscal; ring).
  assert (S0 : forall (v : vec X), (fun x => u x + dt * v x)%R = vadd u (vscal dt v)) by (intros; apply vec_ext; intros x; unfold vadd, vscal; ring).
  rewrite !S1, !S0, !HPs. change (P (F u)) with (A u).
  repeat split; f_equal.
  - apply vec_ext; intros x. unfold taylor. cbn -[INR Rdiv]. unfold vadd, vscal. simpl fact. simpl INR. field.
  - fold (A (vadd u (vscal (dt * (1 / 2)) (A u)))). rewrite A1, A2.
    apply vec_ext; intros x. unfold taylor. cbn -[INR Rdiv]. unfold vadd, vscal. simpl fact. simpl INR. field.
  - change (fun x => (1 / 2 * F u x + 1 / 2 * F (vadd u (vscal dt (A u))) x)%R)
      with (vadd (vscal (1 / 2) (F u)) (vscal (1 / 2) (F (vadd u (vscal dt (A u)))))).
    destruct HP as [P1 P2]. rewrite P1, !P2.
    change (P (F u)) with (A u). change (P (F (vadd u (vscal dt (A u))))) with (A (vadd u (vscal dt (A u)))). rewrite A1, A2.
    apply vec_ext; intros x. unfold taylor. cbn -[INR Rdiv]. unfold vadd, vscal. simpl fact. simpl INR. field.
  - set (u1 := vadd u (vscal (dt * (1 / 2)) (A u))). change (P (F u1)) with (A u1).
    set (u2 := vadd u (vscal (dt * (1 / 2)) (A u1))). change (P (F u2)) with (A u2).
    set (u3 := vadd u (vscal dt (A u2))).
    change (fun x => (1 / 6 * F u x + 1 / 3 * F u1 x + 1 / 3 * F u2 x + 1 / 6 * F u3 x)%R)
      with (vadd (vadd (vadd (vscal (1 / 6) (F u)) (vscal (1 / 3) (F u1))) (vscal (1 / 3) (F u2))) (vscal (1 / 6) (F u3))).
    destruct HP as [P1 P2]. rewrite !P1, !P2.
    change (P (F u)) with (A u). change (P (F u1)) with (A u1). change (P (F u2)) with (A u2). change (P (F u3)) with (A u3).
    unfold u3. rewrite !A1, !A2. unfold u2. rewrite !A1, !A2. unfold u1. rewrite !A1, !A2.
    apply vec_ext; intros x. unfold taylor. cbn -[INR Rdiv]. unfold vadd, vscal. simpl fact. simpl INR. field.
Qed.
(* @ex *)
Lemma rk_taylor_ex_lem :
  let F := fun (u : vec bool) (x : bool) => if x then (3 * u false)%R else (2 * u true + u false)%R in
  let P := fun (u : vec bool) (x : bool) => ((u true + u false) / 2)%R in
  linear F /\ linear P /\ P (fun _ => 5%R) = (fun _ : bool => 5%R).
Proof.
  repeat split; intros; apply vec_ext; intros x; unfold vadd, vscal; try destruct x; field.
Qed.

(* @prop C36 A state that the projection fixes and whose explicit tendency vanishes is returned unchanged by every scheme built on any accepted tableau with long enough rows. *)
Lemma rk_steady_state_lem : forall X a b t (F P : vec X -> vec X) dt u,
  butcher_tableau a b = Ok t -> full_rows 0 a -> P u = u -> F u = vzero ->
  navier_stokes_rk t F P dt u = Ok u.
Proof.
  intros X a b t F P dt u Ht Hr HP HF.
  destruct (@rk_step_is_tableau_lem X a b t F P dt u Ht Hr) as (_ & H & _).
  assert (Hz : forall n (c : nat -> R), (fun x => u x + dt * nsum n (fun j => c j * F u x))%R = u).
  { intros n c. apply vec_ext; intros x. rewrite (@nsum_zero n); [ring|]. intros i Hi. rewrite HF. unfold vzero. ring. }
  rewrite (H (fun _ => u)).
  - rewrite Hz, HP. reflexivity.
  - split; [reflexivity|]. intros i Hi. rewrite Hz, HP. reflexivity.
Qed.
(* @ex *)
Lemma rk_steady_state_ex_lem :
  classic_rk4 (fun (u : vec unit) x => 1 - u x)%R (fun u => u) 3%R (fun _ => 1%R) = Ok (fun _ => 1%R).
Proof.
  unfold classic_rk4, make_rk. cbn -[navier_stokes_rk Rdiv].
  apply (@rk_steady_state_lem unit [[(1 / 2)%R]; [0%R; (1 / 2)%R]; [0%R; 0%R; 1%R]] [(1 / 6)%R; (1 / 3)%R; (1 / 3)%R; (1 / 6)%R]);
    [reflexivity | intros [|[|[|i]]] Hi; cbn in *; lia | reflexivity |].
  apply vec_ext; intros x. unfold vzero. ring.
Qed.

(** *** Comparison with the exponential *)
Lemma expT_derive p z :
  derivable_pt_lim (fun z => nsum (S (S p)) (fun k => z ^ k / INR (fact k))%R) z (nsum (S p) (fun k => z ^ k / INR (fact k))%R).
Proof.
  induction p as [|p IH].
  - unfold nsum, lsum. simpl.
    apply (derivable_pt_lim_ext (fun z => 1 + z)%R); [intros y; field|].
    replace (1 / 1 + 0)%R with (0 + 1)%R by field. apply derivable_pt_lim_plus; [apply derivable_pt_lim_const | apply derivable_pt_lim_id].
  - apply (derivable_pt_lim_ext (fun z => nsum (S (S p)) (fun k => z ^ k / INR (fact k)) + / INR (fact (S (S p))) * z ^ (S (S p)))%R).
    { intros y. rewrite (nsum_S (S (S p))). f_equal. unfold Rdiv. ring. }
    rewrite (nsum_S (S p)). apply derivable_pt_lim_plus; [exact IH|].
    replace (z ^ S p / INR (fact (S p)))%R with (/ INR (fact (S (S p))) * (INR (S (S p)) * z ^ (pred (S (S p)))))%R.
    + apply (derivable_pt_lim_scal (fun z => z ^ S (S p))%R). apply derivable_pt_lim_pow.
    + rewrite (fact_simpl (S p)). rewrite mult_INR. cbn [pred]. field.
      split; [apply INR_fact_neq_0 | apply not_0_INR; lia].
Qed.

Lemma nsum_S_l n f : nsum (S n) f = (f 0%nat + nsum n (fun k => f (S k)))%R.
Proof. unfold nsum. cbn [seq map lsum fold_right]. f_equal. rewrite <- seq_shift, map_map. reflexivity. Qed.

Lemma expT_at_0 p : nsum (S p) (fun k => 0 ^ k / INR (fact k))%R = 1%R.
Proof.
  rewrite nsum_S_l. rewrite (@nsum_zero p); [simpl; field|].
  intros i Hi. rewrite pow_i by lia. unfold Rdiv; ring.
Qed.

Lemma exp_remainder p : forall z, (Rabs z <= 1)%R ->
  (Rabs (exp z - nsum (S p) (fun k => z ^ k / INR (fact k))) <= 3 * Rabs z ^ (S p))%R.
Proof.
  assert (Hmvt : forall f f' : R -> R, (forall x, derivable_pt_lim f x (f' x)) -> f 0%R = 0%R ->
            forall z B, (forall c, (Rabs c <= Rabs z)%R -> (Rabs (f' c) <= B)%R) -> (Rabs (f z) <= B * Rabs z)%R).
  { intros f f' Hd H0 z B HB.
    assert (Hpr : derivable f) by (intros x; exists (f' x); apply Hd).
    destruct (Rtotal_order z 0) as [Hz|[Hz|Hz]].
    - destruct (MVT_cor1 f z 0 Hpr Hz) as (c & Hc & Hcz).
      rewrite H0 in Hc. rewrite (derive_pt_eq_0 f c (f' c) (Hpr c) (Hd c)) in Hc.
      assert (E : f z = (f' c * z)%R) by lra. rewrite E, Rabs_mult. apply Rmult_le_compat_r; [apply Rabs_pos|].
      apply HB. rewrite !Rabs_left1 by lra. lra.
    - subst z. rewrite H0. rewrite Rabs_R0. lra.
    - destruct (MVT_cor1 f 0 z Hpr Hz) as (c & Hc & Hcz).
      rewrite H0 in Hc. rewrite (derive_pt_eq_0 f c (f' c) (Hpr c) (Hd c)) in Hc.
      assert (E : f z = (f' c * z)%R) by lra. rewrite E, Rabs_mult. apply Rmult_le_compat_r; [apply Rabs_pos|].
      apply HB. rewrite !Rabs_right by lra. lra. }
  assert (He1 : (exp 1 <= 3)%R) by apply exp_le_3.
  assert (Hexp : forall c, (Rabs c <= 1)%R -> (Rabs (exp c) <= 3)%R).
  { intros c Hc. rewrite Rabs_right by (left; apply exp_pos).
    apply Rle_trans with (exp 1); auto.
    destruct (Req_dec c 1) as [->|Hne]; [lra|]. left. apply exp_increasing.
    pose proof (Rle_abs c). lra. }
  induction p as [|p IH]; intros z Hz.
  - replace (3 * Rabs z ^ 1)%R with (3 * Rabs z)%R by (simpl; ring).
    apply (Hmvt (fun z => exp z - nsum 1 (fun k => z ^ k / INR (fact k)))%R (fun z => exp z - 0)%R).
    + intros x. apply (derivable_pt_lim_ext (fun z => exp z - 1)%R); [intros y; cbn; field|].
      apply derivable_pt_lim_minus; [apply derivable_pt_lim_exp | apply derivable_pt_lim_const].
    + rewrite expT_at_0, exp_0. ring.
    + intros c Hc. rewrite Rminus_0_r. apply Hexp. lra.
  - replace (3 * Rabs z ^ S (S p))%R with (3 * Rabs z ^ S p * Rabs z)%R by (simpl; ring).
    apply (Hmvt (fun z => exp z - nsum (S (S p)) (fun k => z ^ k / INR (fact k)))%R
                (fun z => exp z - nsum (S p) (fun k => z ^ k / INR (fact k)))%R).
    + intros x. apply derivable_pt_lim_minus; [apply derivable_pt_lim_exp | apply expT_derive].
    + rewrite expT_at_0, exp_0. ring.
    + intros c Hc. apply Rle_trans with (3 * Rabs c ^ S p)%R; [apply IH; lra|].
      apply Rmult_le_compat_l; [lra|]. apply pow_incr. split; [apply Rabs_pos | auto].
Qed.

Definition expT (p : nat) (z : R) : R := nsum (S p) (fun k => z ^ k / INR (fact k))%R.

Lemma expT_pos_bound p z : (0 <= z)%R -> (expT p z <= exp z)%R.
Proof.
  intros Hz.
  assert (Hmono : forall f f' : R -> R, (forall x, derivable_pt_lim f x (f' x)) -> f 0%R = 0%R ->
            (forall c, (0 <= c)%R -> (0 <= f' c)%R) -> forall z, (0 <= z)%R -> (0 <= f z)%R).
  { intros f f' Hd H0 HB y Hy.
    assert (Hpr : derivable f) by (intros x; exists (f' x); apply Hd).
    destruct (Req_dec y 0) as [->|Hne]; [rewrite H0; lra|].
    destruct (MVT_cor1 f 0 y Hpr ltac:(lra)) as (c & Hc & Hcz).
    rewrite H0 in Hc. rewrite (derive_pt_eq_0 f c (f' c) (Hpr c) (Hd c)) in Hc.
    assert (E : f y = (f' c * y)%R) by lra. rewrite E. apply Rmult_le_pos; [apply HB; lra | lra]. }
  assert (H : (0 <= exp z - expT p z)%R); [|lra].
  revert z Hz. induction p as [|p IH]; intros z Hz.
  - apply (Hmono (fun z => exp z - expT 0 z)%R (fun z => exp z - 0)%R); auto.
    + intros x. apply (derivable_pt_lim_ext (fun z => exp z - 1)%R); [intros y; unfold expT; cbn; field|].
      apply derivable_pt_lim_minus; [apply derivable_pt_lim_exp | apply derivable_pt_lim_const].
    + unfold expT. rewrite expT_at_0, exp_0. ring.
    + intros c Hc. rewrite Rminus_0_r. left; apply exp_pos.
  - apply (Hmono (fun z => exp z - expT (S p) z)%R (fun z => exp z - expT p z)%R); auto.
    + intros x. unfold expT. apply derivable_pt_lim_minus; [apply derivable_pt_lim_exp | apply expT_derive].
    + unfold expT. rewrite expT_at_0, exp_0. ring.
Qed.

Lemma nsum_abs n f : (Rabs (nsum n f) <= nsum n (fun k => Rabs (f k)))%R.
Proof.
  induction n as [|n IH]; [rewrite !nsum_0, Rabs_R0; lra|]. rewrite !nsum_S.
  eapply Rle_trans; [apply Rabs_triang|]. lra.
Qed.

Lemma expT_abs p z : (Rabs (expT p z) <= expT p (Rabs z))%R.
Proof.
  unfold expT. eapply Rle_trans; [apply nsum_abs|]. apply nsum_le; intros k Hk.
  unfold Rdiv. rewrite Rabs_mult, RPow_abs. rewrite (Rabs_right (/ _)); [lra|].
  left. apply Rinv_0_lt_compat, lt_0_INR, lt_O_fact.
Qed.

Lemma pow_diff a b M n : (Rabs a <= M)%R -> (Rabs b <= M)%R -> (Rabs (a ^ n - b ^ n) <= INR n * M ^ (n - 1) * Rabs (a - b))%R.
Proof.
  intros Ha Hb. assert (HM : (0 <= M)%R) by (pose proof (Rabs_pos a); lra).
  induction n as [|n IH]; [simpl; rewrite Rminus_diag_eq, Rabs_R0 by reflexivity; lra|].
  replace (a ^ S n - b ^ S n)%R with (a * (a ^ n - b ^ n) + (a - b) * b ^ n)%R by (simpl; ring).
  eapply Rle_trans; [apply Rabs_triang|]. rewrite !Rabs_mult.
  assert (Hbn : (Rabs (b ^ n) <= M ^ n)%R) by (rewrite <- RPow_abs; apply pow_incr; split; [apply Rabs_pos | auto]).
  assert (H1 : (Rabs a * Rabs (a ^ n - b ^ n) <= M * (INR n * M ^ (n - 1) * Rabs (a - b)))%R).
  { apply Rmult_le_compat; auto; apply Rabs_pos. }
  assert (H2 : (Rabs (a - b) * Rabs (b ^ n) <= Rabs (a - b) * M ^ n)%R) by (apply Rmult_le_compat_l; [apply Rabs_pos | auto]).
  replace (S n - 1)%nat with n by lia. rewrite S_INR.
  assert (H3 : (M * (INR n * M ^ (n - 1) * Rabs (a - b)) = INR n * M ^ n * Rabs (a - b))%R).
  { destruct n as [|n]; [simpl; ring|]. replace (S n - 1)%nat with n by lia. simpl pow. ring. }
  lra.
Qed.

Lemma exp_pow z n : exp (INR n * z) = (exp z ^ n)%R.
Proof.
  induction n as [|n IH]; [simpl; rewrite Rmult_0_l; apply exp_0|].
  rewrite S_INR. replace ((INR n + 1) * z)%R with (z + INR n * z)%R by ring. rewrite exp_plus, IH. reflexivity.
Qed.

Lemma abs_expT_bound p z : (Rabs (expT p z) <= exp (Rabs z))%R.
Proof. eapply Rle_trans; [apply expT_abs | apply expT_pos_bound, Rabs_pos]. Qed.

Lemma exp_le_abs z : (Rabs (exp z) <= exp (Rabs z))%R.
Proof.
  rewrite Rabs_right by (left; apply exp_pos).
  destruct (Req_dec z (Rabs z)) as [E|E]; [rewrite <- E; lra|]. left. apply exp_increasing. pose proof (Rle_abs z). lra.
Qed.

(** Global error of [n] steps with amplification [expT p (z/n)]. *)
Lemma expT_global p z n : 0 < n -> (Rabs z <= INR n)%R ->
  (Rabs (expT p (z / INR n) ^ n - exp z) <= 3 * exp (Rabs z) * Rabs z ^ (S p) / INR n ^ p)%R.
Proof.
  intros Hn Hz. assert (HnR : (0 < INR n)%R) by (apply lt_0_INR; auto).
  assert (Hzn : (Rabs (z / INR n) = Rabs z / INR n)%R).
  { unfold Rdiv. rewrite Rabs_mult. rewrite (Rabs_right (/ INR n)); [reflexivity|]. left; apply Rinv_0_lt_compat; auto. }
  assert (Hle1 : (Rabs (z / INR n) <= 1)%R).
  { rewrite Hzn. apply (Rmult_le_reg_r (INR n)); auto. unfold Rdiv. rewrite Rmult_assoc, Rinv_l by lra. lra. }
  set (w := (z / INR n)%R) in *.
  replace (exp z) with (exp w ^ n)%R; [|rewrite <- exp_pow; f_equal; unfold w; field; lra].
  eapply Rle_trans; [apply (@pow_diff _ _ (exp (Rabs w)) n); [apply abs_expT_bound | apply exp_le_abs]|].
  assert (Hr : (Rabs (expT p w - exp w) <= 3 * Rabs w ^ S p)%R) by (rewrite Rabs_minus_sym; apply exp_remainder; auto).
  assert (HM : (exp (Rabs w) ^ (n - 1) <= exp (Rabs z))%R).
  { rewrite <- exp_pow. assert (HH : (INR (n - 1) * Rabs w <= Rabs z)%R).
    { rewrite minus_INR by lia. simpl (INR 1). rewrite Hzn.
      assert (E : ((INR n - 1) * (Rabs z / INR n) = Rabs z - Rabs z / INR n)%R) by (field; lra). rewrite E.
      assert (0 <= Rabs z / INR n)%R by (rewrite <- Hzn; apply Rabs_pos). lra. }
    destruct HH as [HH|HH]; [left; apply exp_increasing; auto | rewrite HH; lra]. }
  assert (HMp : (0 < exp (Rabs w) ^ (n - 1))%R) by (apply pow_lt, exp_pos).
  apply Rle_trans with (INR n * exp (Rabs z) * (3 * Rabs w ^ S p))%R.
  - apply Rmult_le_compat; auto using Rabs_pos.
    + apply Rmult_le_pos; lra.
    + apply Rmult_le_compat_l; lra.
  - right. rewrite Hzn. unfold Rdiv. rewrite Rpow_mult_distr, pow_inv. simpl pow. field.
    split; [apply pow_nonzero|]; lra.
Qed.

(** [n] successive steps. *)
Definition steps {X} (step : vec X -> result (vec X)) (n : nat) (u : vec X) : result (vec X) :=
  Nat.iter n (fun r => let* v := r in step v) (Ok u).

Lemma taylor_diag {X} (lam : vec X) dt p (u : vec X) :
  taylor (fun v x => lam x * v x)%R dt p u = fun x => (expT p (lam x * dt) * u x)%R.
Proof.
  apply vec_ext; intros x. unfold taylor, expT. rewrite Rmult_comm, <- nsum_scal. apply nsum_ext; intros k Hk.
  assert (E : Nat.iter k (fun (v : vec X) x => lam x * v x)%R u x = (lam x ^ k * u x)%R).
  { clear Hk. induction k as [|k IH]; [simpl; ring|]. simpl in *. rewrite IH. ring. }
  rewrite E, Rpow_mult_distr. unfold Rdiv. ring.
Qed.

Lemma steps_diag {X} (step : R -> vec X -> result (vec X)) (lam : vec X) p dt n u :
  (forall dt u, step dt u = Ok (taylor (fun v x => lam x * v x)%R dt p u)) ->
  steps (step dt) n u = Ok (fun x => expT p (lam x * dt) ^ n * u x)%R.
Proof.
  intros H. unfold steps. induction n as [|n IH].
  - simpl. f_equal. apply vec_ext; intros x; ring.
  - simpl in *. rewrite IH. cbn [bind]. rewrite H, taylor_diag. f_equal. apply vec_ext; intros x. ring.
Qed.

Lemma diag_linear {X} (lam : vec X) : linear (fun (v : vec X) x => lam x * v x)%R.
Proof. split; intros; apply vec_ext; intros x; unfold vadd, vscal; ring. Qed.

(* @prop C36 Convergence at the stated order: for u' = lambda u (componentwise, no constraint) integrated to time T in n equal steps, the error of forward_euler, midpoint_rk2, heun_rk2 and classic_rk4 against exp(lambda T) u is at most 3 exp(|lambda T|) |lambda T|^(p+1) |u| / n^p with p = 1, 2, 2, 4. *)
Lemma rk_convergence_lem : forall X (lam : vec X) T n (u : vec X) x,
  0 < n -> (Rabs (lam x * T) <= INR n)%R ->
  let F := fun (v : vec X) y => (lam y * v y)%R in
  let P := fun v : vec X => v in
  let dt := (T / INR n)%R in
  let within p r := exists w, r = Ok w /\
    (Rabs (w x - exp (lam x * T) * u x) <= 3 * exp (Rabs (lam x * T)) * Rabs (lam x * T) ^ (p + 1) / INR n ^ p * Rabs (u x))%R in
  within 1 (steps (forward_euler F P dt) n u) /\ within 2 (steps (midpoint_rk2 F P dt) n u) /\
  within 2 (steps (heun_rk2 F P dt) n u) /\ within 4 (steps (classic_rk4 F P dt) n u).
Proof.
  intros X lam T n u x Hn HT F P dt within.
  assert (Hk : forall p step, (forall dt u, step dt u = Ok (taylor F dt p u)) -> within p (steps (step dt) n u)).
  { intros p step Hs. eexists. split; [apply (@steps_diag X step lam p dt n u Hs)|]. cbn beta.
    rewrite <- Rmult_minus_distr_r, Rabs_mult. apply Rmult_le_compat_r; [apply Rabs_pos|].
    replace (lam x * dt)%R with (lam x * T / INR n)%R by (unfold dt, Rdiv; ring).
    rewrite Nat.add_1_r. apply expT_global; auto. }
  assert (HF : linear F) by apply diag_linear. assert (HP : linear P) by (split; reflexivity).
  repeat split; apply Hk; intros dt' u'; destruct (@rk_taylor_lem X F P dt' u' HF HP eq_refl) as (H1 & H2 & H3 & H4); auto.
Qed.
(* @ex *)
Lemma rk_convergence_ex_lem : (0 < 4 /\ Rabs (2 * 1) <= INR 4)%R.
Proof. split; [lra|]. rewrite Rabs_right by lra. simpl. lra. Qed.

(** ** C37: defining equations *)
(* @prop C37 backward_forward_euler returns u1 with u1 = u0 + dt F(u0) + dt G(u1), when implicit_solve solves its equation for this step size. *)
Lemma backward_forward_euler_equation_lem : forall X (F G : vec X -> vec X) Ginv dt u0,
  solves G Ginv dt ->
  let u1 := backward_forward_euler F Ginv dt u0 in
  forall x, u1 x = (u0 x + dt * F u0 x + dt * G u1 x)%R.
Proof.
  intros X F G Ginv dt u0 HS u1 x. specialize (HS (vadd u0 (vscal dt (F u0))) x).
  change (Ginv (vadd u0 (vscal dt (F u0))) dt) with u1 in HS. unfold vadd, vscal in HS. lra.
Qed.
(* @ex *)
Lemma backward_forward_euler_equation_ex_lem :
  solves (fun (v : vec unit) x => -2 * v x)%R (fun y h x => y x / (1 + 2 * h))%R (1 / 4)%R.
Proof. intros y x. field. Qed.

(* @prop C37 crank_nicolson_rk2 returns u2 with u2 = u0 + dt/2 (F(u0) + F(u1)) + dt/2 (G(u0) + G(u2)), where u1 = u0 + dt F(u0) + dt/2 (G(u0) + G(u1)). *)
Lemma crank_nicolson_rk2_equation_lem : forall X (F G : vec X -> vec X) Ginv dt u0,
  solves G Ginv (1 / 2 * dt)%R ->
  let u2 := crank_nicolson_rk2 F G Ginv dt u0 in
  exists u1, (forall x, u1 x = (u0 x + dt * F u0 x + dt / 2 * (G u0 x + G u1 x))%R) /\
    (forall x, u2 x = (u0 x + dt / 2 * (F u0 x + F u1 x) + dt / 2 * (G u0 x + G u2 x))%R).
Proof.
  intros X F G Ginv dt u0 HS u2.
  set (g := vadd u0 (vscal (1 / 2 * dt) (G u0))).
  exists (Ginv (vadd g (vscal dt (F u0))) (1 / 2 * dt)%R). split; intros x.
  - pose proof (HS (vadd g (vscal dt (F u0))) x) as H. unfold g, vadd, vscal in *. lra.
  - pose proof (HS (vadd g (vscal dt (vscal (1 / 2) (vadd (F (Ginv (vadd g (vscal dt (F u0))) (1 / 2 * dt)%R)) (F u0))))) x) as H.
    change (Ginv (vadd g (vscal dt (vscal (1 / 2) (vadd (F (Ginv (vadd g (vscal dt (F u0))) (1 / 2 * dt)%R)) (F u0))))) (1 / 2 * dt)%R) with u2 in H.
    set (u1 := Ginv (vadd g (vscal dt (F u0))) (1 / 2 * dt)%R) in *. unfold g, vadd, vscal in H. lra.
Qed.
(* @ex *)
Lemma crank_nicolson_rk2_equation_ex_lem :
  solves (fun (v : vec unit) x => -2 * v x)%R (fun y h x => y x / (1 + 2 * h))%R (1 / 2 * 3)%R.
Proof. intros y x. field. Qed.

(** The low-storage recursion: [u (k+1) = u k + gamma_k dt h_k + dt/2 (alpha_(k+1) - alpha_k) (G(u k) + G(u (k+1)))],
    [h_k = F(u k) + beta_k h_(k-1)], [h_(-1) = 0]. *)
Definition low_storage_stages {X} (alphas betas gammas : list R) (F G : vec X -> vec X) (dt : R) (u0 : vec X) (h u : nat -> vec X) : Prop :=
  u 0 = u0 /\ (forall x, h 0 x = F u0 x) /\
  (forall k x, S k < length betas -> (h (S k) x = F (u (S k)) x + nth (S k) betas 0 * h k x)%R) /\
  (forall k x, k < length betas ->
     (u (S k) x = u k x + nth k gammas 0 * dt * h k x
                 + dt / 2 * (nth (S k) alphas 0 - nth k alphas 0) * (G (u k) x + G (u (S k)) x))%R).

(* @prop C37 With lists of lengths s+1, s, s and implicit_solve solving its equation for the s step sizes dt/2 (alpha_(k+1) - alpha_k), the low-storage Runge-Kutta/Crank-Nicolson stepper returns the last state of its defining recursion (each substep: low-storage Runge-Kutta for F and Crank-Nicolson for G). *)
Lemma low_storage_equations_lem : forall X alphas betas gammas (F G : vec X -> vec X) Ginv dt u0,
  length alphas = length betas + 1 -> length gammas = length betas ->
  (forall k, k < length betas -> solves G Ginv (1 / 2 * dt * (nth (S k) alphas 0 - nth k alphas 0))%R) ->
  exists h u, low_storage_stages alphas betas gammas F G dt u0 h u /\
    low_storage_rk_cn alphas betas gammas F G Ginv dt u0 = Ok (u (length betas)).
Proof.
  intros X al be ga F G Ginv dt u0 Hal Hga HS.
  (* stages by primitive recursion *)
  set (mu := fun k => (1 / 2 * dt * (nth (S k) al 0 - nth k al 0))%R).
  set (nxt := fun (k : nat) (hu : vec X * vec X) =>
     let h' := vadd (F (snd hu)) (vscal (nth k be 0%R) (fst hu)) in
     (h', Ginv (vadd (vadd (snd hu) (vscal (nth k ga 0%R * dt) h')) (vscal (mu k) (G (snd hu)))) (mu k))).
  set (st := fix st (k : nat) : vec X * vec X := match k with O => (vzero, u0) | S k => nxt k (st k) end).
  exists (fun k => fst (st (S k))), (fun k => snd (st k)). split.
  - split; [reflexivity|]. split; [|split].
    + intros x. cbn [st]. unfold nxt. cbn [fst snd]. unfold vadd, vscal, vzero. ring.
    + intros k x Hk. cbn [st]. reflexivity.
    + intros k x Hk. change (st (S k)) with (nxt k (st k)). unfold nxt at 1 2 3. cbn [fst snd].
      specialize (HS k Hk (vadd (vadd (snd (st k)) (vscal (nth k ga 0%R * dt) (vadd (F (snd (st k))) (vscal (nth k be 0%R) (fst (st k)))))) (vscal (mu k) (G (snd (st k))))) x).
      fold (mu k) in HS. set (U := Ginv _ (mu k)) in *. unfold vadd, vscal in HS. unfold vadd, vscal, mu in *. lra.
  - unfold low_storage_rk_cn.
    replace (Z.of_nat (length al) - 1 =? Z.of_nat (length be))%Z with true by (symmetry; apply Z.eqb_eq; lia). cbn [negb andb].
    set (body := fun hu k => _).
    assert (Hl : forall m, m <= length be -> foldM body (vzero, u0) (seq 0 m) = Ok (st m)).
    { induction m as [|m IH]; intros Hm; [reflexivity|]. rewrite foldM_seq_snoc, IH by lia. cbn [bind plus].
      unfold body. destruct (st m) as [h u] eqn:E.
      rewrite (nth_error_nth' be 0%R) by lia. rewrite !(nth_error_nth' al 0%R) by lia. rewrite (nth_error_nth' ga 0%R) by lia.
      replace (m + 1) with (S m) by lia. change (st (S m)) with (nxt m (st m)). rewrite E. reflexivity. }
    rewrite Hl by lia. reflexivity.
Qed.
(* @ex *)
Lemma low_storage_equations_ex_lem :
  let al := [0; 1 / 3; 3 / 4; 1]%R in let be := [0; - (5 / 9); - (153 / 128)]%R in let ga := [1 / 3; 15 / 16; 8 / 15]%R in
  length al = length be + 1 /\ length ga = length be /\
  forall k, k < length be -> solves (fun (v : vec unit) x => -2 * v x)%R (fun y h x => y x / (1 + 2 * h))%R (1 / 2 * 1 * (nth (S k) al 0 - nth k al 0))%R.
Proof.
  repeat split. intros k Hk. do 3 (destruct k as [|k]; [intros y x; cbn [nth]; field; lra|]). cbn in Hk; lia.
Qed.

(* @prop C37 The coefficient-length check of the low-storage stepper is meant to require lengths s+1, s, s, but lists of lengths 3, 2, 3 (more generally any gammas when the alphas match the betas) are accepted and the extra coefficients silently ignored. *)
Lemma low_storage_length_check_refuted_lem :
  ~ (forall (alphas betas gammas : list R),
       ~ (length alphas = length betas + 1 /\ length gammas = length betas) ->
       low_storage_rk_cn alphas betas gammas (fun u : vec unit => u) (fun u => u) (fun y _ => y) 1%R vzero = Err EValue).
Proof.
  intros H. specialize (H [0; 1; 1]%R [0; 0]%R [1; 1; 1]%R). 
  assert (Hn : ~ (length [0; 1; 1]%R = length [0; 0]%R + 1 /\ length [1; 1; 1]%R = length [0; 0]%R)) by (cbn; lia).
  specialize (H Hn). unfold low_storage_rk_cn in H. cbn in H. discriminate.
Qed.

(** ** C38: implicit-explicit Runge-Kutta *)
Lemma imex_stages_exist {X} t (F G : vec X -> vec X) Ginv dt y0 : exists Y, imex_stages t F G Ginv dt y0 Y.
Proof.
  destruct (@cov_rec (vec X) (fun i Y => if i =? 0 then y0 else
     Ginv (fun x => y0 x + dt * nsum i (fun j => coef (ia_ex t) i j * F (Y j) x)
                              + dt * nsum i (fun j => coef (ia_im t) i j * G (Y j) x))%R (dt * coef (ia_im t) i i)%R)) as [U HU].
  - intros i U U' H. destruct (i =? 0); [reflexivity|]. f_equal. apply vec_ext; intros x.
    rewrite (@nsum_ext i (fun j => coef (ia_ex t) i j * F (U j) x)%R (fun j => coef (ia_ex t) i j * F (U' j) x)%R) by (intros j Hj; rewrite H by auto; reflexivity).
    rewrite (@nsum_ext i (fun j => coef (ia_im t) i j * G (U j) x)%R (fun j => coef (ia_im t) i j * G (U' j) x)%R) by (intros j Hj; rewrite H by auto; reflexivity).
    reflexivity.
  - exact y0.
  - exists U. split; [rewrite HU; reflexivity|]. intros i Hi. rewrite (HU i) at 1. destruct i; [lia|]. reflexivity.
Qed.

(** The stage [i] of an [n]-stage method is used by a later stage or by the final sum. *)
Definition used (a : list (list R)) (b : list R) (n i : nat) : Prop :=
  weight b i <> 0%R \/ exists k, i < k < n /\ coef a k i <> 0%R.

Lemma any_coef_spec a i s m : (forall j, s <= j < s + m -> j < length a /\ i < length (nth j a [])) ->
  exists x, any_coef a i (seq s m) = Ok x /\ (x = true <-> exists j, s <= j < s + m /\ nth i (nth j a []) 0%R <> 0%R).
Proof.
  revert s; induction m as [|m IH]; intros s H; cbn [seq any_coef].
  - exists false. split; [reflexivity|]. split; [discriminate | intros (j & Hj & _); lia].
  - destruct (H s ltac:(lia)) as [H1 H2]. rewrite (nth_error_nth' a []) by auto. rewrite (nth_error_nth' _ 0%R) by auto.
    destruct (nz (nth i (nth s a []) 0%R)) eqn:E.
    + exists true. split; [reflexivity|]. split; auto. intros _. exists s. split; [lia|]. apply nz_true; auto.
    + destruct (IH (S s)) as (x & Hx & Hiff); [intros j Hj; apply H; lia|]. exists x. split; auto.
      rewrite Hiff. apply nz_false in E. split; intros (j & Hj & Hc); exists j; split; auto; try lia.
      destruct (Nat.eq_dec j s) as [->|]; [contradiction | lia].
Qed.

Lemma stage_needed_spec a b n i extra : full_rows extra a -> length a + 1 = n -> length b = n -> 1 <= i < n ->
  exists x, stage_needed a b i n = Ok x /\ (x = true <-> used a b n i).
Proof.
  intros Hr Ha Hb Hi. unfold stage_needed.
  destruct (@any_coef_spec a i i (n - 1 - i)) as (x & Hx & Hiff).
  { intros j Hj. split; [lia|]. specialize (Hr j ltac:(lia)). lia. }
  assert (HE : (exists j, i <= j < i + (n - 1 - i) /\ nth i (nth j a []) 0%R <> 0%R) <-> exists k, i < k < n /\ coef a k i <> 0%R).
  { split.
    - intros (j & Hj & Hc). exists (S j). split; [lia|]. unfold coef. replace (S j - 1) with j by lia. auto.
    - intros (k & Hk & Hc). exists (k - 1). split; [lia|]. exact Hc. }
  rewrite HE in Hiff. rewrite Hx. cbn [bind]. destruct x.
  - exists true. split; [reflexivity|]. split; auto. intros _. right. apply Hiff; reflexivity.
  - rewrite (nth_error_nth' b 0%R) by lia. eexists. split; [reflexivity|]. rewrite nz_true. unfold used, weight.
    split; [auto|]. intros [H|H]; auto. apply Hiff in H. discriminate.
Qed.

Lemma imex_run {X} (t : imex_tableau) (F G : vec X -> vec X) Ginv dt y0 Y n :
  n = length (ib_ex t) -> length (ib_im t) = n -> length (ia_ex t) + 1 = n -> length (ia_im t) + 1 = n ->
  full_rows 0 (ia_ex t) -> full_rows 1 (ia_im t) -> imex_stages t F G Ginv dt y0 Y ->
  exists lf lg,
  imex_runge_kutta t F G Ginv dt y0 =
    Ok (fun x => y0 x + dt * nsum n (fun j => weight (ib_ex t) j * F (Y j) x) + dt * nsum n (fun j => weight (ib_im t) j * G (Y j) x), lf, lg)%R /\
  NoDup lf /\ NoDup lg /\
  (forall i, In i lf <-> i = 0 \/ (1 <= i < n /\ used (ia_ex t) (ib_ex t) n i)) /\
  (forall i, In i lg <-> i = 0 \/ (1 <= i < n /\ used (ia_im t) (ib_im t) n i)).
Proof.
  intros En Hbi Hae Hai Hre Hri [HY0 HY]. unfold imex_runge_kutta. cbv zeta. rewrite <- En in *.
  destruct n as [|n]; [lia|].
  set (body := fun st i => _).
  assert (Hloop : forall m, m <= n -> exists f g lf lg,
      foldM body (upd 0 (Some (F y0)) (repeat None (S n)), upd 0 (Some (G y0)) (repeat None (S n)), [0], [0]) (seq 1 m) = Ok (f, g, lf, lg) /\
      length f = S n /\ length g = S n /\
      (forall j, j <= m -> j = 0 \/ used (ia_ex t) (ib_ex t) (S n) j -> nth_error f j = Some (Some (F (Y j)))) /\
      (forall j, j <= m -> j = 0 \/ used (ia_im t) (ib_im t) (S n) j -> nth_error g j = Some (Some (G (Y j)))) /\
      NoDup lf /\ NoDup lg /\
      (forall i, In i lf <-> i = 0 \/ (1 <= i <= m /\ used (ia_ex t) (ib_ex t) (S n) i)) /\
      (forall i, In i lg <-> i = 0 \/ (1 <= i <= m /\ used (ia_im t) (ib_im t) (S n) i))).
  { induction m as [|m IH]; intros Hm.
    - do 4 eexists. split; [reflexivity|]. rewrite !upd_length, repeat_length. split; [reflexivity|]. split; [reflexivity|].
      split; [intros j Hj _; replace j with 0 by lia; simpl; rewrite HY0; reflexivity|].
      split; [intros j Hj _; replace j with 0 by lia; simpl; rewrite HY0; reflexivity|].
      split; [repeat constructor; auto|]. split; [repeat constructor; auto|].
      split; intros i; simpl; (split; [intros [<-|[]]; auto | intros [->|[H _]]; [auto | lia]]).
    - destruct IH as (f & g & lf & lg & Hk & Hfl & Hgl & Hf & Hg & Nf & Ng & Hlf & Hlg); [lia|].
      rewrite foldM_seq_snoc, Hk. cbn [bind]. unfold body at 1.
      replace (1 + m) with (S m) by lia. replace (S m - 1) with m by lia.
      rewrite (nth_error_nth' (ia_ex t) []) by lia. rewrite (nth_error_nth' (ia_im t) []) by lia.
      pose proof (Hre m ltac:(lia)) as Hre'. pose proof (Hri m ltac:(lia)) as Hri'.
      assert (Hcoef : forall a j, nth j (nth m a []) 0%R = coef a (S m) j) by (intros; unfold coef; replace (S m - 1) with m by lia; reflexivity).
      rewrite (@wsum_spec X _ _ (fun j => F (Y j))); [| lia |].
      2:{ intros j Hj Hc. apply Hf; [lia|]. right. right. exists (S m). split; [lia|]. rewrite <- Hcoef. exact Hc. }
      rewrite (@wsum_spec X _ _ (fun j => G (Y j))); [| lia |].
      2:{ intros j Hj Hc. apply Hg; [lia|]. right. right. exists (S m). split; [lia|]. rewrite <- Hcoef. exact Hc. }
      cbn [bind]. rewrite (nth_error_nth' _ 0%R) by lia.
      destruct (@stage_needed_spec (ia_ex t) (ib_ex t) (S n) (S m) 0) as (nf & Hnf & Hnf'); auto; [lia|].
      destruct (@stage_needed_spec (ia_im t) (ib_im t) (S n) (S m) 1) as (ng & Hng & Hng'); auto; [lia|].
      rewrite Hnf, Hng. cbn [bind].
      match goal with |- context [Ginv ?ys ?h] => set (Ym := Ginv ys h) end.
      assert (EY : Ym = Y (S m)).
      { rewrite (HY (S m)) by lia. unfold Ym. rewrite Hcoef. f_equal. apply vec_ext; intros x. unfold vadd, vscal.
        f_equal; [f_equal|]; f_equal; apply nsum_ext; intros j Hj; rewrite Hcoef; reflexivity. }
      rewrite EY. do 4 eexists. split; [reflexivity|].
      split; [destruct nf; [rewrite upd_length|]; auto|]. split; [destruct ng; [rewrite upd_length|]; auto|].
      assert (Hupd : forall (K : vec X -> vec X) a b (l : list (option (vec X))) (q : bool), length l = S n -> (q = true <-> used a b (S n) (S m)) ->
                (forall j, j <= m -> j = 0 \/ used a b (S n) j -> nth_error l j = Some (Some (K (Y j)))) ->
                forall j, j <= S m -> j = 0 \/ used a b (S n) j -> nth_error (if q then upd (S m) (Some (K (Y (S m)))) l else l) j = Some (Some (K (Y j)))).
      { intros K a b l q Hl Hq Hall j Hj Hu. destruct (Nat.eq_dec j (S m)) as [->|Hne].
        - assert (Hu' : used a b (S n) (S m)) by (destruct Hu; [lia | auto]). apply Hq in Hu'. rewrite Hu'.
          rewrite (nth_error_nth' _ None) by (rewrite upd_length; lia). rewrite nth_upd_same by lia. reflexivity.
        - destruct q; [|apply Hall; auto; lia].
          rewrite (nth_error_nth' _ None) by (rewrite upd_length; lia). rewrite nth_upd_other by lia.
          f_equal. apply nth_error_nth. apply Hall; auto; lia. }
      assert (Hlog : forall a b l (q : bool), (q = true <-> used a b (S n) (S m)) -> NoDup l ->
                (forall i, In i l <-> i = 0 \/ (1 <= i <= m /\ used a b (S n) i)) ->
                NoDup (if q then l ++ [S m] else l) /\
                (forall i, In i (if q then l ++ [S m] else l) <-> i = 0 \/ (1 <= i <= S m /\ used a b (S n) i))).
      { intros a b l q Hq Hnd Hin. destruct q.
        - split.
          + apply (Permutation_NoDup (l := S m :: l)); [apply Permutation_cons_append|]. constructor; auto.
            rewrite Hin. intros [H|[H _]]; lia.
          + intros i. rewrite in_app_iff, Hin. simpl. split.
            * intros [[H|[H1 H2]]|[<-|[]]]; auto; right; split; auto; try lia. apply Hq; reflexivity.
            * intros [H|[H1 H2]]; auto. destruct (Nat.eq_dec i (S m)); [auto | left; right; split; auto; lia].
        - split; auto. intros i. rewrite Hin. split; intros [H|[H1 H2]]; auto; right; split; auto; try lia.
          destruct (Nat.eq_dec i (S m)) as [->|]; [|lia]. apply Hq in H2. discriminate. }
      split; [eapply (Hupd F); eauto|]. split; [eapply (Hupd G); eauto|].
      destruct (Hlog _ _ _ _ Hnf' Nf Hlf) as [A1 A2]. destruct (Hlog _ _ _ _ Hng' Ng Hlg) as [B1 B2]. auto. }
  destruct (Hloop n (le_n n)) as (f & g & lf & lg & Hk & Hfl & Hgl & Hf & Hg & Nf & Ng & Hlf & Hlg).
  replace (S n - 1) with n by lia. rewrite Hk. cbn [bind].
  rewrite (@wsum_spec X _ _ (fun j => F (Y j))); [| lia | intros j Hj Hc; apply Hf; [lia|]; right; left; exact Hc].
  rewrite (@wsum_spec X _ _ (fun j => G (Y j))); [| lia | intros j Hj Hc; apply Hg; [lia|]; right; left; exact Hc].
  cbn [bind]. exists lf, lg. split; [reflexivity|]. repeat split; auto.
  1,2: intros Hi; apply Hlf in Hi || apply Hlf; destruct Hi as [Hi|[H1 H2]]; auto; right; split; auto; lia.
  1,2: intros Hi; apply Hlg in Hi || apply Hlg; destruct Hi as [Hi|[H1 H2]]; auto; right; split; auto; lia.
Qed.

Lemma imex_tab_inv a_ex a_im b_ex b_im t : imex_butcher_tableau a_ex a_im b_ex b_im = Ok t ->
  t = mkimex a_ex a_im b_ex b_im /\ length a_im = length a_ex /\ length b_ex = length a_ex + 1 /\ length b_im = length a_ex + 1.
Proof.
  unfold imex_butcher_tableau. destruct (_ && _ && _)%bool eqn:E; [|discriminate]. intros H; injection H as <-.
  apply andb_prop in E. destruct E as [E1 E3]. apply andb_prop in E1. destruct E1 as [E1 E2].
  apply Nat.eqb_eq in E1, E2, E3. repeat split; lia.
Qed.

(* @prop C38 For every accepted tableau with long enough rows, imex_runge_kutta returns exactly y0 + dt sum_j b_ex_j F(Y_j) + dt sum_j b_im_j G(Y_j), the sums over all stages, with Y_0 = y0 and Y_i = implicit_solve(y0 + dt sum_{j<i} a_ex_ij F(Y_j) + dt sum_{j<i} a_im_ij G(Y_j), dt a_im_ii); it evaluates explicit_terms (implicit_terms) once at stage 0 and once at exactly those other stages whose explicit (implicit) coefficient is nonzero in some later stage or in the final sum. *)
Lemma imex_full_sum_lem : forall X a_ex a_im b_ex b_im t (F G : vec X -> vec X) Ginv dt y0,
  imex_butcher_tableau a_ex a_im b_ex b_im = Ok t -> full_rows 0 a_ex -> full_rows 1 a_im ->
  let n := length b_ex in
  (exists Y, imex_stages t F G Ginv dt y0 Y) /\
  forall Y, imex_stages t F G Ginv dt y0 Y ->
  exists lf lg,
    imex_runge_kutta t F G Ginv dt y0 =
      Ok (fun x => y0 x + dt * nsum n (fun j => weight b_ex j * F (Y j) x) + dt * nsum n (fun j => weight b_im j * G (Y j) x), lf, lg)%R /\
    NoDup lf /\ NoDup lg /\
    (forall i, In i lf <-> i = 0 \/ (1 <= i < n /\ used a_ex b_ex n i)) /\
    (forall i, In i lg <-> i = 0 \/ (1 <= i < n /\ used a_im b_im n i)).
Proof.
  intros X a_ex a_im b_ex b_im t F G Ginv dt y0 Ht Hre Hri n.
  destruct (imex_tab_inv _ _ _ _ Ht) as (-> & H1 & H2 & H3).
  split; [apply imex_stages_exist|]. intros Y HY.
  destruct (@imex_run X (mkimex a_ex a_im b_ex b_im) F G Ginv dt y0 Y n) as (lf & lg & H); cbn [ia_ex ia_im ib_ex ib_im] in *; auto; try lia.
  exists lf, lg. exact H.
Qed.
(* @ex *)
Lemma imex_full_sum_ex_lem :
  exists t, imex_butcher_tableau [[1%R]; [0%R; (1 / 2)%R]] [[0%R; 1%R]; [(1 / 2)%R; 0%R; (1 / 2)%R]] [(1 / 2)%R; 0%R; (1 / 2)%R] [(1 / 2)%R; 0%R; (1 / 2)%R] = Ok t /\
    full_rows 0 [[1%R]; [0%R; (1 / 2)%R]] /\ full_rows 1 [[0%R; 1%R]; [(1 / 2)%R; 0%R; (1 / 2)%R]].
Proof. eexists. split; [reflexivity|]. split; intros [|[|i]] Hi; cbn in *; lia. Qed.

(* @prop C38 If moreover implicit_solve solves its equation for the step sizes dt a_im_ii, every stage satisfies the full implicit-explicit equation Y_i = y0 + dt sum_{j<i} a_ex_ij F(Y_j) + dt sum_{j<=i} a_im_ij G(Y_j). *)
Lemma imex_stage_equation_lem : forall X t (F G : vec X -> vec X) Ginv dt y0 Y i x,
  imex_stages t F G Ginv dt y0 Y -> 1 <= i < length (ib_ex t) ->
  solves G Ginv (dt * coef (ia_im t) i i)%R ->
  (Y i x = y0 x + dt * nsum i (fun j => coef (ia_ex t) i j * F (Y j) x) + dt * nsum (S i) (fun j => coef (ia_im t) i j * G (Y j) x))%R.
Proof.
  intros X t F G Ginv dt y0 Y i x [HY0 HY] Hi HS.
  specialize (HY i Hi). rewrite nsum_S.
  match type of HY with _ = Ginv ?ys ?h => specialize (HS ys x) end. rewrite <- HY in HS. lra.
Qed.
(* @ex *)
Lemma imex_stage_equation_ex_lem :
  solves (fun (v : vec unit) x => -2 * v x)%R (fun y h x => y x / (1 + 2 * h))%R (1 * coef [[1 / 6; 1 / 6]%R] 1 1)%R.
Proof. intros y x. cbn. field. Qed.

(* @prop C38 A tableau is accepted exactly when the two weight lists have equal length n and both coefficient lists have n-1 rows; otherwise ValueError. *)
Lemma imex_tableau_check_lem : forall a_ex a_im b_ex b_im,
  let good := length b_ex = length b_im /\ length a_ex + 1 = length b_ex /\ length a_im + 1 = length b_im in
  (good -> imex_butcher_tableau a_ex a_im b_ex b_im = Ok (mkimex a_ex a_im b_ex b_im)) /\
  (~ good -> imex_butcher_tableau a_ex a_im b_ex b_im = Err EValue).
Proof.
  intros a_ex a_im b_ex b_im good. unfold imex_butcher_tableau, good.
  destruct (Nat.eqb_spec (length a_im + 1) (length a_ex + 1)); destruct (Nat.eqb_spec (length b_ex) (length a_ex + 1));
    destruct (Nat.eqb_spec (length b_im) (length a_ex + 1)); cbn [andb]; split; intros H; try reflexivity; exfalso; lia.
Qed.
(* @ex *)
Lemma imex_tableau_check_ex_lem :
  imex_butcher_tableau [[1%R]] [[0%R; 1%R]] [1%R; 0%R] [1%R; 0%R; 0%R] = Err EValue /\ is_ok (imex_butcher_tableau [[1%R]] [[0%R; 1%R]] [1%R; 0%R] [1%R; 0%R]).
Proof. split; [reflexivity | eexists; reflexivity]. Qed.

Lemma wsum_no_unbound {X} row (ks : list (option (vec X))) n :
  (forall j c, j < n -> nth_error row j = Some c -> c <> 0%R -> exists v, nth_error ks j = Some (Some v)) ->
  wsum row ks n <> Err EUnbound.
Proof.
  unfold wsum. induction n as [|n IH]; intros H; [discriminate|].
  rewrite foldM_seq_snoc. cbn [plus].
  match goal with |- context [bind ?r _] => destruct r as [acc|e] eqn:E end; cbn [bind].
  - destruct (nth_error row n) as [c|] eqn:Ec; [|discriminate]. destruct (nz c) eqn:Ez; [|discriminate].
    apply nz_true in Ez. destruct (H n c ltac:(lia) Ec Ez) as [v ->]. discriminate.
  - intros Hc. apply IH; [intros j c Hj; apply H; lia|]. exact Hc.
Qed.

Lemma any_coef_false a i js : any_coef a i js = Ok false ->
  forall j row c, In j js -> nth_error a j = Some row -> nth_error row i = Some c -> c = 0%R.
Proof.
  induction js as [|j js IH]; cbn [any_coef]; intros H k row c Hin Ha Hc; [destruct Hin|].
  destruct (nth_error a j) as [r|] eqn:Er; [|discriminate]. destruct (nth_error r i) as [c'|] eqn:Ec; [|discriminate].
  destruct (nz c') eqn:Ez; [discriminate|]. destruct Hin as [->|Hin].
  - rewrite Ha in Er. injection Er as <-. rewrite Hc in Ec. injection Ec as <-. apply nz_false; auto.
  - eapply IH; eauto.
Qed.

Lemma any_coef_err a i js e : any_coef a i js = Err e -> e = EIndex.
Proof.
  induction js as [|j js IH]; cbn [any_coef]; [discriminate|].
  destruct (nth_error a j) as [r|]; [|congruence]. destruct (nth_error r i) as [c'|]; [|congruence].
  destruct (nz c'); [discriminate | auto].
Qed.

Lemma stage_needed_err a b i n e : stage_needed a b i n = Err e -> e = EIndex.
Proof.
  unfold stage_needed. destruct (any_coef a i _) as [x|e'] eqn:E; cbn [bind].
  - destruct x; [discriminate|]. destruct (nth_error b i); congruence.
  - apply any_coef_err in E. congruence.
Qed.

Lemma stage_needed_false a b i n : stage_needed a b i n = Ok false ->
  (forall k row c, i <= k < n - 1 -> nth_error a k = Some row -> nth_error row i = Some c -> c = 0%R) /\
  (forall c, nth_error b i = Some c -> c = 0%R).
Proof.
  unfold stage_needed. destruct (any_coef a i _) as [x|e'] eqn:E; cbn [bind]; [|discriminate].
  destruct x; [discriminate|]. destruct (nth_error b i) as [c|] eqn:Eb; [|discriminate]. intros H.
  split.
  - intros k row c' Hk. eapply any_coef_false; eauto. apply in_seq. lia.
  - intros c' Hc'. injection Hc' as <-. apply nz_false. congruence.
Qed.

(* @prop C38 Whatever the tableau (also with rows that are too short, which raise IndexError), imex_runge_kutta never reads a stage value it has not computed. *)
Lemma imex_never_reads_missing_stage_lem : forall X a_ex a_im b_ex b_im t (F G : vec X -> vec X) Ginv dt y0,
  imex_butcher_tableau a_ex a_im b_ex b_im = Ok t -> imex_runge_kutta t F G Ginv dt y0 <> Err EUnbound.
Proof.
  intros X a_ex a_im b_ex b_im t F G Ginv dt y0 Ht.
  destruct (imex_tab_inv _ _ _ _ Ht) as (-> & H1 & H2 & H3). unfold imex_runge_kutta. cbn [ia_ex ia_im ib_ex ib_im].
  remember (length b_ex) as n eqn:En. destruct n as [|n]; [discriminate|].
  set (body := fun st i => _).
  set (good := fun (a : list (list R)) (b : list R) (m : nat) (l : list (option (vec X))) =>
    length l = S n /\
    forall j, j <= m -> (exists v, nth_error l j = Some (Some v)) \/
      ((forall k row c, j <= k < n -> nth_error a k = Some row -> nth_error row j = Some c -> c = 0%R) /\ (forall c, nth_error b j = Some c -> c = 0%R))).
  assert (Hloop : forall m, m <= n ->
      match foldM body (upd 0 (Some (F y0)) (repeat None (S n)), upd 0 (Some (G y0)) (repeat None (S n)), [0], [0]) (seq 1 m) with
      | Ok (f, g, _, _) => good a_ex b_ex m f /\ good a_im b_im m g
      | Err e => e <> EUnbound
      end).
  { induction m as [|m IH]; intros Hm.
    - cbn [seq foldM]. split; (split; [rewrite upd_length, repeat_length; reflexivity|]); intros j Hj; left; replace j with 0 by lia; eexists; reflexivity.
    - rewrite foldM_seq_snoc. specialize (IH ltac:(lia)). destruct (foldM body _ (seq 1 m)) as [[[[f g] lf] lg]|e]; cbn [bind]; [|exact IH].
      destruct IH as [[Hfl Hf] [Hgl Hg]]. unfold body. replace (1 + m) with (S m) by lia. replace (S m - 1) with m by lia.
      destruct (nth_error a_ex m) as [re|] eqn:Ere; [|discriminate]. destruct (nth_error a_im m) as [ri|] eqn:Eri; [|discriminate].
      assert (We : wsum re f (S m) <> Err EUnbound).
      { apply wsum_no_unbound. intros j c Hj Hc Hne. destruct (Hf j ltac:(lia)) as [Hv|[Hk _]]; auto.
        exfalso. apply Hne. apply (Hk m re c); auto; lia. }
      assert (Wi : wsum ri g (S m) <> Err EUnbound).
      { apply wsum_no_unbound. intros j c Hj Hc Hne. destruct (Hg j ltac:(lia)) as [Hv|[Hk _]]; auto.
        exfalso. apply Hne. apply (Hk m ri c); auto; lia. }
      destruct (wsum re f (S m)) as [se|e]; cbn [bind]; [|congruence]. destruct (wsum ri g (S m)) as [si|e]; cbn [bind]; [|congruence].
      destruct (nth_error ri (S m)) as [aii|]; [|discriminate].
      destruct (stage_needed a_ex b_ex (S m) (S n)) as [nf|e] eqn:Enf; cbn [bind]; [|apply stage_needed_err in Enf; subst; discriminate].
      destruct (stage_needed a_im b_im (S m) (S n)) as [ng|e] eqn:Eng; cbn [bind]; [|apply stage_needed_err in Eng; subst; discriminate].
      assert (Hgood : forall a b l (q : bool) v, good a b m l -> stage_needed a b (S m) (S n) = Ok q ->
                 good a b (S m) (if q then upd (S m) (Some v) l else l)).
      { intros a b l q v [Hl Hj0] Hq. split; [destruct q; [rewrite upd_length|]; auto|]. intros j Hj.
        destruct (Nat.eq_dec j (S m)) as [->|Hne].
        - destruct q.
          + left. exists v. rewrite (nth_error_nth' _ None) by (rewrite upd_length; lia). rewrite nth_upd_same by lia. reflexivity.
          + right. apply stage_needed_false in Hq. replace (S n - 1) with n in Hq by lia. exact Hq.
        - destruct (Hj0 j ltac:(lia)) as [[w Hw]|Hr]; [left | right; auto]. exists w. destruct q; auto.
          rewrite (nth_error_nth' _ None) by (rewrite upd_length; lia). rewrite nth_upd_other by lia. f_equal. apply nth_error_nth; auto. }
      split; apply Hgood; auto; split; auto. }
  specialize (Hloop n (le_n n)). replace (S n - 1) with n by lia.
  destruct (foldM body _ (seq 1 n)) as [[[[f g] lf] lg]|e]; cbn [bind]; [|congruence].
  destruct Hloop as [[Hfl Hf] [Hgl Hg]].
  assert (We : wsum b_ex f (S n) <> Err EUnbound).
  { apply wsum_no_unbound. intros j c Hj Hc Hne. destruct (Hf j ltac:(lia)) as [Hv|[_ Hk]]; auto. exfalso; apply Hne; auto. }
  assert (Wi : wsum b_im g (S n) <> Err EUnbound).
  { apply wsum_no_unbound. intros j c Hj Hc Hne. destruct (Hg j ltac:(lia)) as [Hv|[_ Hk]]; auto. exfalso; apply Hne; auto. }
  destruct (wsum b_ex f (S n)) as [se|e]; cbn [bind]; [|congruence]. destruct (wsum b_im g (S n)) as [si|e]; cbn [bind]; [discriminate|congruence].
Qed.
(* @ex *)
Lemma imex_never_reads_missing_stage_ex_lem : is_ok (imex_butcher_tableau [[1%R]; [0%R]] [[0%R; 1%R]; []] [1%R; 0%R; 0%R] [1%R; 0%R; 1%R]).
Proof. eexists; reflexivity. Qed.
