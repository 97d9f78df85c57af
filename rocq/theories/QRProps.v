(** * Property C43: Gram-Schmidt QR decomposition *)
From Verif Require Import Prelude NdArr Grids_model Spec FDProofs FastDiagProofs ArrayUtils_model ArrayUtilsProps.
From Coq Require Import Psatz.
Set Implicit Arguments.
Local Open Scope Z_scope.

(** ** Specification vocabulary *)
(** The columns of the [m x n] matrix [A] are linearly independent. *)
Definition full_column_rank (m n : nat) (A : arr R) : Prop :=
  forall x : Z -> R, (forall i, 0 <= i < Z.of_nat m -> rsum n (fun j => get A [i; j] * x j)%R = 0%R) ->
    forall j, 0 <= j < Z.of_nat n -> x j = 0%R.
(** [q] has orthonormal columns, [r] is upper triangular with positive diagonal, and [q r = A]. *)
Definition qr_decomposition (m n : nat) (A q r : arr R) : Prop :=
  shp q = [m; n] /\ shp r = [n; n] /\
  (forall a b, 0 <= a < Z.of_nat n -> 0 <= b < Z.of_nat n -> rsum m (fun i => get q [i; a] * get q [i; b])%R = if a =? b then 1%R else 0%R) /\
  (forall k j, 0 <= k < Z.of_nat n -> 0 <= j < Z.of_nat n -> j < k -> get r [k; j] = 0%R) /\
  (forall k, 0 <= k < Z.of_nat n -> (0 < get r [k; k])%R) /\
  (forall i j, 0 <= i < Z.of_nat m -> 0 <= j < Z.of_nat n -> rsum n (fun l => get q [i; l] * get r [l; j])%R = get A [i; j]).

Lemma rs_ns n f : rsum n f = nsum n (fun k => f (Z.of_nat k)).
Proof. induction n as [|n IH]; [reflexivity|]. rewrite nsum_S, <- IH. reflexivity. Qed.
Lemma nsum_tail k n f : (k <= n)%nat -> (forall j, (k <= j < n)%nat -> f j = 0%R) -> nsum n f = nsum k f.
Proof.
  intros Hk H. induction n as [|n IH]; [replace k with 0%nat by lia; reflexivity|]. destruct (Nat.eq_dec k (S n)) as [->|N]; [reflexivity|].
  rewrite nsum_S, (H n) by lia. rewrite IH; [ring | lia | intros j Hj; apply H; lia].
Qed.
Lemma nsum_pick n f l : (l < n)%nat -> (forall j, (j < n)%nat -> j <> l -> f j = 0%R) -> nsum n f = f l.
Proof.
  intros Hl H. rewrite (@nsum_tail (S l) n); [| lia | intros j Hj; apply H; lia]. rewrite nsum_S, nsum_zero; [ring|]. intros j Hj. apply H; lia.
Qed.
Lemma nsum_swap a b (f : nat -> nat -> R) : nsum a (fun i => nsum b (fun j => f i j)) = nsum b (fun j => nsum a (fun i => f i j)).
Proof. induction a as [|a IH]; [rewrite nsum_0; symmetry; apply nsum_zero; intros; apply nsum_0|]. rewrite nsum_S, IH, <- nsum_plus. apply nsum_ext. intros j _. rewrite nsum_S. reflexivity. Qed.

Definition dv : arr R := afull [] 0%R.
Section GS.
Variable m : nat.
Definition dot (x y : arr R) : R := rsum m (fun i => get x [i] * get y [i])%R.
Definition vec (x : arr R) : Prop := shp x = [m].
Lemma vdot_dot x y : vec x -> vdot x y = dot x y.
Proof. intros H. unfold vdot. rewrite H. reflexivity. Qed.
Lemma dot_sym x y : dot x y = dot y x.
Proof. apply rsum_ext. intros. ring. Qed.
Lemma dot_ext x x' y : (forall i, 0 <= i < Z.of_nat m -> get x [i] = get x' [i]) -> dot x y = dot x' y.
Proof. intros H. apply rsum_ext. intros i Hi. rewrite H by exact Hi. reflexivity. Qed.
Lemma dot_comb x c k (a : nat -> R) (q : nat -> arr R) y : (forall i, 0 <= i < Z.of_nat m -> get x [i] = (get c [i] - nsum k (fun l => a l * get (q l) [i]))%R) ->
  dot x y = (dot c y - nsum k (fun l => a l * dot (q l) y))%R.
Proof.
  intros H. unfold dot. rewrite (rsum_ext m _ (fun i => get c [i] * get y [i] - nsum k (fun l => a l * (get (q l) [i] * get y [i])))%R).
  - rewrite rsum_minus. f_equal. change (rsum m (fun i => nsum k (fun l => a l * (get (q l) [i] * get y [i])))%R) with (asum [m] (fun ix => nsum k (fun l => a l * (get (q l) [nth 0 ix 0%Z] * get y [nth 0 ix 0%Z])))%R).
    rewrite asum_nsum. apply nsum_ext. intros l _. cbn [asum nth]. rewrite rsum_scal. reflexivity.
  - intros i Hi. rewrite H by exact Hi. rewrite Rmult_minus_distr_r. f_equal. rewrite Rmult_comm, <- nsum_scal. apply nsum_ext. intros l _. ring.
Qed.
Lemma dot_pos x : (0 <= dot x x)%R.
Proof. apply rsum_nonneg. intros i _. apply Rle_0_sqr. Qed.
Lemma dot_0 x : dot x x = 0%R -> forall i, 0 <= i < Z.of_nat m -> get x [i] = 0%R.
Proof.
  intros H i Hi. assert (E : (get x [i] * get x [i] = 0)%R) by (apply (@rsum_nonneg_0 m (fun i => get x [i] * get x [i])%R); [intros j _; apply Rle_0_sqr | exact H | exact Hi]).
  apply Rsqr_0_uniq. exact E.
Qed.

Definition orthonormal (qs : list (arr R)) : Prop :=
  Forall vec qs /\ forall a b, (a < length qs)%nat -> (b < length qs)%nat -> dot (nth a qs dv) (nth b qs dv) = if (a =? b)%nat then 1%R else 0%R.

Lemma mgs qs : forall c, vec c -> orthonormal qs ->
  let v := fold_left (fun c x => vsubmul c (vdot c x) x) qs c in
  vec v /\ forall i, 0 <= i < Z.of_nat m -> get v [i] = (get c [i] - nsum (length qs) (fun l => dot c (nth l qs dv) * get (nth l qs dv) [i]))%R.
Proof.
  induction qs as [|q qs IH]; intros c Hc (Hv & Ho) v.
  - split; [exact Hc|]. intros i _. cbn [length]. rewrite nsum_0. unfold v. cbn [fold_left]. ring.
  - inversion Hv as [|? ? Hq Hqs]; subst. set (c1 := vsubmul c (vdot c q) q).
    assert (Oq : orthonormal qs). { split; [exact Hqs|]. intros a b Ha Hb. apply (Ho (S a) (S b)); cbn [length]; lia. }
    destruct (IH c1 Hc Oq) as (V1 & V2). split; [exact V1|]. intros i Hi. unfold v. cbn [fold_left]. fold c1. rewrite (V2 i Hi). cbn [length]. rewrite nsum_first. cbn [nth].
    assert (E : forall l, (l < length qs)%nat -> dot c1 (nth l qs dv) = dot c (nth l qs dv)).
    { intros l Hl. rewrite (@dot_comb c1 c 1 (fun _ => dot c q) (fun _ => q) (nth l qs dv)).
      - unfold nsum. cbn [seq map lsum fold_right]. pose proof (Ho 0%nat (S l) ltac:(cbn [length]; lia) ltac:(cbn [length]; lia)) as Z0. cbn [nth Nat.eqb] in Z0. rewrite Z0. ring.
      - intros j _. unfold c1, vsubmul. cbn [get]. rewrite vdot_dot by exact Hc. unfold nsum. cbn [seq map lsum fold_right]. ring. }
    rewrite (@nsum_ext (length qs) (fun l => dot c1 (nth l qs dv) * get (nth l qs dv) [i])%R (fun a => dot c (nth a qs dv) * get (nth a qs dv) [i])%R) by (intros l Hl; rewrite E by exact Hl; reflexivity).
    unfold c1, vsubmul. cbn [get]. rewrite vdot_dot by exact Hc. ring.
Qed.

Definition independent (cols : list (arr R)) : Prop :=
  forall x : nat -> R, (forall i, 0 <= i < Z.of_nat m -> nsum (length cols) (fun j => x j * get (nth j cols dv) [i])%R = 0%R) -> forall j, (j < length cols)%nat -> x j = 0%R.
Definition inv (cols qs : list (arr R)) : Prop :=
  length qs = length cols /\ orthonormal qs /\
  (forall j, (j < length cols)%nat -> (0 < dot (nth j cols dv) (nth j qs dv))%R /\
     forall i, 0 <= i < Z.of_nat m -> get (nth j cols dv) [i] = nsum (S j) (fun l => dot (nth j cols dv) (nth l qs dv) * get (nth l qs dv) [i])%R) /\
  exists T : nat -> nat -> R, forall l i, (l < length cols)%nat -> 0 <= i < Z.of_nat m -> get (nth l qs dv) [i] = nsum (length cols) (fun j => T l j * get (nth j cols dv) [i])%R.

Lemma gs_step done c rest qs : Forall vec (done ++ c :: rest) -> independent (done ++ c :: rest) -> inv done qs -> inv (done ++ [c]) (qs ++ [orthogonalize c qs]).
Proof.
  intros Hv Hind (L & (Qv & Qo) & Hj & T & HT). set (k := length done) in *.
  assert (Hc : vec c) by (rewrite Forall_forall in Hv; apply Hv; apply in_app_iff; right; left; reflexivity).
  destruct (@mgs qs c Hc (conj Qv Qo)) as (V1 & V2). set (v := fold_left (fun c x => vsubmul c (vdot c x) x) qs c) in *. cbv zeta in V1, V2.
  rewrite L in V2. set (a := fun l => dot c (nth l qs dv)).
  assert (V2' : forall i, 0 <= i < Z.of_nat m -> get v [i] = (get c [i] - nsum k (fun l => a l * get (nth l qs dv) [i]))%R) by exact V2. clear V2. rename V2' into V2.
  assert (Ddone : forall j, (j < k)%nat -> nth j (done ++ c :: rest) dv = nth j done dv) by (intros j H; apply app_nth1; exact H).
  assert (Dc : nth k (done ++ c :: rest) dv = c) by (rewrite app_nth2 by (unfold k; lia); unfold k; rewrite Nat.sub_diag; reflexivity).
  assert (Lall : length (done ++ c :: rest) = (k + S (length rest))%nat) by (rewrite app_length; reflexivity).
  assert (Pos : (0 < dot v v)%R).
  { destruct (Rle_lt_or_eq_dec _ _ (dot_pos v)) as [|Z0]; [assumption|]. exfalso. symmetry in Z0. pose proof (dot_0 v Z0) as Hz.
    set (x := fun j => if (j <? k)%nat then (- nsum k (fun l => a l * T l j))%R else if (j =? k)%nat then 1%R else 0%R).
    assert (Hx : x k = 0%R).
    { apply (Hind x); [|rewrite Lall; lia]. intros i Hi. rewrite (@nsum_tail (S k)); [| rewrite Lall; lia | intros j Hj'; unfold x; destruct (Nat.ltb_spec j k); [lia|]; destruct (Nat.eqb_spec j k); [lia|]; ring].
      rewrite nsum_S, Dc. unfold x at 2. rewrite Nat.ltb_irrefl, Nat.eqb_refl.
      rewrite (@nsum_ext k _ (fun j => - nsum k (fun l => a l * (T l j * get (nth j done dv) [i])))%R).
      - rewrite nsum_opp, nsum_swap. rewrite (@nsum_ext k _ (fun l => a l * get (nth l qs dv) [i])%R).
        + assert (X : (0 = get c [i] - nsum k (fun l => a l * get (nth l qs dv) [i]))%R) by (rewrite <- (Hz i Hi); exact (V2 i Hi)). lra.
        + intros l Hl. rewrite nsum_scal. f_equal. symmetry. apply HT; assumption.
      - intros j Hj'. unfold x. destruct (Nat.ltb_spec j k); [|lia]. rewrite Ddone by exact Hj'. rewrite Ropp_mult_distr_l_reverse. f_equal. rewrite Rmult_comm, <- nsum_scal. apply nsum_ext. intros l _. ring. }
    unfold x in Hx. rewrite Nat.ltb_irrefl, Nat.eqb_refl in Hx. lra. }
  set (N := vnorm v). assert (HN : (N * N = dot v v)%R) by (unfold N, vnorm; rewrite vdot_dot by exact V1; apply sqrt_sqrt; lra).
  assert (NP : (0 < N)%R) by (unfold N, vnorm; rewrite vdot_dot by exact V1; apply sqrt_lt_R0; exact Pos).
  set (q := orthogonalize c qs). assert (Gq : forall i, get q [i] = (get v [i] / N)%R) by reflexivity. assert (Vq : vec q) by exact V1.
  assert (Dq : forall y, dot q y = (dot v y / N)%R) by (intros y; unfold dot, Rdiv; rewrite Rmult_comm, <- rsum_scal; apply rsum_ext; intros i _; rewrite Gq; unfold Rdiv; ring).
  assert (Vl : forall l, (l < k)%nat -> dot v (nth l qs dv) = 0%R).
  { intros l Hl. rewrite (@dot_comb v c k a (fun l => nth l qs dv) (nth l qs dv) V2). rewrite (@nsum_pick k _ l Hl); [rewrite Qo by lia; rewrite Nat.eqb_refl; unfold a; ring|].
    intros j Hj' N'. rewrite Qo by lia. destruct (Nat.eqb_spec j l); [contradiction | ring]. }
  assert (Cq : dot c q = N).
  { rewrite dot_sym, Dq. assert (E : dot c v = dot v v).
    { rewrite (@dot_comb v c k a (fun l => nth l qs dv) v V2). rewrite (@nsum_zero k); [ring|]. intros l Hl. rewrite dot_sym, (Vl l Hl). ring. }
    rewrite dot_sym, E, <- HN. field. lra. }
  assert (N1 : forall l, (l < k)%nat -> nth l (qs ++ [q]) dv = nth l qs dv) by (intros l Hl; apply app_nth1; lia).
  assert (N2 : nth k (qs ++ [q]) dv = q) by (rewrite app_nth2 by lia; rewrite L; fold k; rewrite Nat.sub_diag; reflexivity).
  assert (M1 : forall l, (l < k)%nat -> nth l (done ++ [c]) dv = nth l done dv) by (intros l Hl; apply app_nth1; exact Hl).
  assert (M2 : nth k (done ++ [c]) dv = c) by (rewrite app_nth2 by (unfold k; lia); unfold k; rewrite Nat.sub_diag; reflexivity).
  assert (Lq : length (qs ++ [q]) = S k) by (rewrite app_length, L; cbn; lia). assert (Ld : length (done ++ [c]) = S k) by (rewrite app_length; cbn; fold k; lia).
  split; [congruence|]. split; [split|split].
  - apply Forall_app. split; [exact Qv | constructor; [exact Vq | constructor]].
  - rewrite Lq. intros x y Hx Hy. destruct (Nat.eq_dec x k) as [->|Nx]; destruct (Nat.eq_dec y k) as [->|Ny].
    + rewrite N2, Nat.eqb_refl, Dq, dot_sym, Dq, <- HN. field. lra.
    + rewrite N2, N1 by lia. rewrite Dq, Vl by lia. destruct (Nat.eqb_spec k y); [lia|]. unfold Rdiv. ring.
    + rewrite N2, N1 by lia. rewrite dot_sym, Dq, Vl by lia. destruct (Nat.eqb_spec x k); [lia|]. unfold Rdiv. ring.
    + rewrite !N1 by lia. apply Qo; lia.
  - rewrite Ld. intros j Hj'. destruct (Nat.eq_dec j k) as [->|Nj].
    + rewrite M2, N2. split; [rewrite Cq; exact NP|]. intros i Hi. rewrite nsum_S, N2, Cq, Gq. rewrite (@nsum_ext k _ (fun l => a l * get (nth l qs dv) [i])%R) by (intros l Hl; rewrite N1 by exact Hl; reflexivity).
      rewrite (V2 i Hi). field. lra.
    + rewrite M1, N1 by lia. destruct (Hj j ltac:(lia)) as (P1 & P2). split; [exact P1|]. intros i Hi. rewrite (P2 i Hi). apply nsum_ext. intros l Hl. rewrite N1 by lia. reflexivity.
  - rewrite Ld. exists (fun l j => if (l =? k)%nat then (if (j =? k)%nat then / N else - nsum k (fun l' => a l' * T l' j) / N)%R else if (j =? k)%nat then 0%R else T l j).
    intros l i Hl Hi. rewrite nsum_S, M2, Nat.eqb_refl. destruct (Nat.eqb_spec l k) as [->|Nl].
    + rewrite N2, Gq. match goal with |- _ = (?S + _)%R => assert (ES : S = (- / N * nsum k (fun l => a l * get (nth l qs dv) [i]))%R) end.
      { transitivity (nsum k (fun j => - / N * nsum k (fun l => a l * (T l j * get (nth j done dv) [i])))%R).
        - apply nsum_ext. intros j Hj'. destruct (Nat.eqb_spec j k); [lia|]. rewrite M1 by exact Hj'. unfold Rdiv.
          rewrite (@nsum_ext k (fun l0 => a l0 * (T l0 j * get (nth j done dv) [i]))%R (fun l' => get (nth j done dv) [i] * (a l' * T l' j))%R) by (intros; ring). rewrite nsum_scal. ring.
        - rewrite nsum_scal, nsum_swap. f_equal. apply nsum_ext. intros l0 Hl0. rewrite nsum_scal. f_equal. symmetry. apply HT; assumption. }
      rewrite ES, (V2 i Hi). field. lra.
    + rewrite N1 by lia. rewrite (HT l i) by (try lia; exact Hi). rewrite Rmult_0_l, Rplus_0_r. apply nsum_ext. intros j Hj'. destruct (Nat.eqb_spec j k); [lia|]. rewrite M1 by exact Hj'. reflexivity.
Qed.
Lemma gs_all rest : forall done qs, Forall vec (done ++ rest) -> independent (done ++ rest) -> inv done qs -> inv (done ++ rest) (gs_columns rest qs).
Proof.
  induction rest as [|c rest IH]; intros done qs Hv Hi Hq; [rewrite app_nil_r; exact Hq|]. cbn [gs_columns].
  replace (done ++ c :: rest) with ((done ++ [c]) ++ rest) in * by (rewrite <- app_assoc; reflexivity). apply IH; [exact Hv | exact Hi|].
  rewrite <- app_assoc in Hv, Hi. cbn [app] in Hv, Hi. eapply gs_step; eauto.
Qed.
End GS.

Lemma sign_pos x : (0 < x)%R -> sign x = 1%R.
Proof. intros H. unfold sign. destruct (Rlt_dec x 0); [lra|]. destruct (Rlt_dec 0 x); [reflexivity | lra]. Qed.

(* @prop C43 For every m x n matrix with linearly independent columns (n >= 1), gram_schmidt_qr returns an m x n matrix Q with orthonormal columns and an upper triangular n x n matrix R with positive diagonal, and the product QR is exactly the given matrix. *)
Lemma gram_schmidt_qr_correct_lem : forall m n A, (0 < n)%nat -> shp A = [m; n] -> full_column_rank m n A ->
  exists q r, gram_schmidt_qr A = Ok (q, r) /\ qr_decomposition m n A q r.
Proof.
  intros m n A Hn Sh Hr. unfold gram_schmidt_qr.
  assert (D : denotes 1 (ndim A) 1) by (unfold denotes, ndim; rewrite Sh; cbn; lia).
  unfold shape_at. rewrite (denotes_norm D). cbn [bind]. destruct (@unstack_spec_lem R A 1 1%nat D) as (cols & E & L & P); [rewrite Sh; exact Hn|].
  rewrite E. cbn [bind]. rewrite Sh in L |- *. cbn [nth] in L |- *.
  assert (Pc : forall k, (k < n)%nat -> vec m (nth k cols dv) /\ forall i, 0 <= i < Z.of_nat m -> get (nth k cols dv) [i] = get A [i; Z.of_nat k]).
  { intros k Hk. destruct (P k (nth k cols dv)) as (S1 & S2); [apply nth_error_nth'; lia|]. rewrite Sh in S1, S2. split; [exact S1|].
    intros i Hi. apply (S2 [i; Z.of_nat k]); [cbn; lia | reflexivity]. }
  assert (Vc : Forall (vec m) cols). { apply Forall_forall. intros c Hc. destruct (In_nth _ _ dv Hc) as (k & Hk & <-). apply Pc. lia. }
  assert (Ind : independent m cols).
  { intros x Hx j Hj. rewrite L in Hx, Hj. rewrite <- (Nat2Z.id j). apply (Hr (fun j => x (Z.to_nat j))); [|lia]. intros i Hi. rewrite rs_ns. rewrite <- (Hx i Hi). apply nsum_ext.
    intros k Hk. rewrite Nat2Z.id. destruct (Pc k Hk) as (_ & G). rewrite (G i Hi). ring. }
  assert (I0 : inv m [] []).
  { split; [reflexivity|]. split; [split; [constructor|]; intros a b Ha; cbn in Ha; lia|]. split; [intros j Hj; cbn in Hj; lia|]. exists (fun _ _ => 0%R). intros l i Hl. cbn in Hl. lia. }
  destruct (@gs_all m cols [] [] Vc Ind I0) as (Lq & (Qv & Qo) & Hj & _). cbn [app] in *. set (qs := gs_columns cols []) in *. rewrite L in *.
  assert (NV : forall l k, vnth l k = nth (Z.to_nat k) l dv) by reflexivity.
  assert (RC : forall k, 0 <= k < Z.of_nat n -> vec m (nth (Z.to_nat k) cols dv)) by (intros k Hk; apply Pc; lia).
  match goal with |- context[Ok (matmul ?Q ?DD, matmul _ ?RR)] => set (d := DD); set (q := Q); set (r := RR) end.
  assert (Rd : forall k j, 0 <= k < Z.of_nat n -> 0 <= j < Z.of_nat n -> get r [k; j] = if (k <=? j) then dot m (nth (Z.to_nat j) cols dv) (nth (Z.to_nat k) qs dv) else 0%R).
  { intros k j Hk Hj'. unfold r. cbn [get nth]. destruct (Z.leb_spec k j); [|reflexivity]. rewrite !NV. apply vdot_dot. apply RC. exact Hj'. }
  assert (Rpos : forall k, 0 <= k < Z.of_nat n -> (0 < get r [k; k])%R) by (intros k Hk; rewrite Rd by exact Hk; rewrite Z.leb_refl; apply Hj; lia).
  assert (Gd : forall k j, 0 <= k < Z.of_nat n -> get d [k; j] = if (k =? j) then 1%R else 0%R) by (intros k j Hk; unfold d; cbn [get nth]; destruct (k =? j); [apply sign_pos; apply Rpos; exact Hk | reflexivity]).
  assert (Gq : forall i j, get q [i; j] = get (nth (Z.to_nat j) qs dv) [i]) by reflexivity.
  assert (Sq : shp q = [m; n]) by reflexivity. assert (Sd : shp d = [n; n]) by reflexivity. assert (Sr : shp r = [n; n]) by reflexivity. clearbody d. clearbody q r.
  assert (Qd : forall i j, 0 <= j < Z.of_nat n -> get (matmul q d) [i; j] = get q [i; j]).
  { intros i j Hj'. unfold matmul. cbn [get nth]. rewrite Sq. cbn [nth]. rewrite (@rsum_single n _ j Hj').
    - rewrite Gd by exact Hj'. rewrite Z.eqb_refl. apply Rmult_1_r.
    - intros l Hl Nl. rewrite Gd by exact Hl. destruct (Z.eqb_spec l j); [contradiction | ring]. }
  assert (Dr : forall k j, 0 <= k < Z.of_nat n -> get (matmul d r) [k; j] = get r [k; j]).
  { intros k j Hk. unfold matmul. cbn [get nth]. rewrite Sd. cbn [nth]. rewrite (@rsum_single n _ k Hk).
    - rewrite Gd by exact Hk. rewrite Z.eqb_refl. apply Rmult_1_l.
    - intros l Hl Nl. rewrite Gd by exact Hk. destruct (Z.eqb_spec k l); [congruence | ring]. }
  eexists. eexists. split; [reflexivity|]. split; [unfold matmul; cbn [shp]; rewrite Sq, Sd; reflexivity|]. split; [unfold matmul; cbn [shp]; rewrite Sr, Sd; reflexivity|]. split; [|split; [|split]].
  - intros a b Ha Hb. rewrite (rsum_ext m _ (fun i => get (nth (Z.to_nat a) qs dv) [i] * get (nth (Z.to_nat b) qs dv) [i])%R) by (intros i _; rewrite !Qd by assumption; rewrite !Gq; reflexivity).
    change (dot m (nth (Z.to_nat a) qs dv) (nth (Z.to_nat b) qs dv) = if a =? b then 1%R else 0%R). rewrite Qo by lia.
    destruct (Nat.eqb_spec (Z.to_nat a) (Z.to_nat b)); destruct (Z.eqb_spec a b); try reflexivity; lia.
  - intros k j Hk Hj' Hl. rewrite Dr by exact Hk. rewrite Rd by assumption. destruct (Z.leb_spec k j); [lia | reflexivity].
  - intros k Hk. rewrite Dr by exact Hk. apply Rpos. exact Hk.
  - intros i j Hi Hj'. rewrite rs_ns. rewrite (@nsum_ext n _ (fun l => get (nth l qs dv) [i] * get r [Z.of_nat l; j])%R) by (intros l Hl; rewrite Qd, Dr by lia; rewrite Gq, Nat2Z.id; reflexivity).
    rewrite (@nsum_tail (S (Z.to_nat j))); [| lia | intros l Hl; rewrite Rd by lia; destruct (Z.leb_spec (Z.of_nat l) j); [lia | ring]].
    destruct (Pc (Z.to_nat j) ltac:(lia)) as (_ & G). rewrite Z2Nat.id in G by lia. rewrite <- (G i Hi). destruct (Hj (Z.to_nat j) ltac:(lia)) as (_ & X). rewrite (X i Hi). apply nsum_ext.
    intros l Hl. rewrite Rd by lia. destruct (Z.leb_spec (Z.of_nat l) j); [|lia]. rewrite Nat2Z.id. ring.
Qed.
(* @ex *)
Lemma gram_schmidt_qr_correct_ex_lem : let A := mkarr [3%nat; 2%nat] (fun ix => match ix with [0; 0] => 3 | [1; 0] => 4 | [0; 1] => 1 | [2; 1] => 2 | _ => 0 end)%R in
  shp A = [3%nat; 2%nat] /\ full_column_rank 3 2 A.
Proof.
  intros A. split; [reflexivity|]. intros x H j Hj. pose proof (H 1 ltac:(lia)) as H1. pose proof (H 2 ltac:(lia)) as H2. cbn in H1, H2.
  assert (j = 0 \/ j = 1) as [-> | ->] by lia; lra.
Qed.

(* @prop C43 The decomposition returned is the only one: any other pair (Q', R') with orthonormal columns, upper triangular R' with positive diagonal and Q'R' equal to the matrix has the same entries. *)
Lemma gram_schmidt_qr_unique_lem : forall m n A q r q' r', (0 < n)%nat -> shp A = [m; n] -> full_column_rank m n A ->
  gram_schmidt_qr A = Ok (q, r) -> qr_decomposition m n A q' r' -> aeq q q' /\ aeq r r'.
Proof.
  intros m n A q r q' r' Hn Sh Hr E' (Sq' & Sr' & O' & U' & D' & P').
  destruct (@gram_schmidt_qr_correct_lem m n A Hn Sh Hr) as (q0 & r0 & E & (Sq & Sr & O & U & D & P)). rewrite E in E'. injection E' as <- <-.
  assert (Main : forall k : nat, forall j, 0 <= j < Z.of_nat k -> j < Z.of_nat n -> (forall i, 0 <= i < Z.of_nat m -> get q0 [i; j] = get q' [i; j]) /\ (forall l, 0 <= l < Z.of_nat n -> get r0 [l; j] = get r' [l; j])).
  { induction k as [|k IH]; intros j Hj Hjn; [lia|]. destruct (Z.eq_dec j (Z.of_nat k)) as [->|Nj]; [|apply IH; lia].
    (* projections of column k on earlier columns *)
    assert (Proj : forall q r, (forall a b, 0 <= a < Z.of_nat n -> 0 <= b < Z.of_nat n -> rsum m (fun i => get q [i; a] * get q [i; b])%R = if a =? b then 1%R else 0%R) ->
       (forall i j, 0 <= i < Z.of_nat m -> 0 <= j < Z.of_nat n -> rsum n (fun l => get q [i; l] * get r [l; j])%R = get A [i; j]) ->
       forall l, 0 <= l < Z.of_nat n -> get r [l; Z.of_nat k] = rsum m (fun i => get A [i; Z.of_nat k] * get q [i; l])%R).
    { intros q1 r1 O1 P1 l Hl. rewrite (rsum_ext m _ (fun i => rsum n (fun l' => get r1 [l'; Z.of_nat k] * (get q1 [i; l'] * get q1 [i; l])))%R).
      - rewrite rsum_swap. rewrite (@rsum_single n _ l Hl).
        + rewrite rsum_scal, O1 by assumption. rewrite Z.eqb_refl. ring.
        + intros l' Hl' N. rewrite rsum_scal, O1 by assumption. destruct (Z.eqb_spec l' l); [contradiction | ring].
      - intros i Hi. rewrite <- (P1 i (Z.of_nat k)) by lia. rewrite <- rsum_scal_r. apply rsum_ext. intros; ring. }
    assert (Elow : forall l, 0 <= l < Z.of_nat n -> l <> Z.of_nat k -> get r0 [l; Z.of_nat k] = get r' [l; Z.of_nat k]).
    { intros l Hl N. destruct (Z.lt_ge_cases l (Z.of_nat k)) as [Hlt|Hge]; [|rewrite U, U' by lia; reflexivity].
      rewrite (Proj q0 r0 O P l Hl), (Proj q' r' O' P' l Hl). apply rsum_ext. intros i Hi. destruct (IH l ltac:(lia) ltac:(lia)) as (Q & _). rewrite (Q i Hi). reflexivity. }
    assert (Ecol : forall i, 0 <= i < Z.of_nat m -> (get q0 [i; Z.of_nat k] * get r0 [Z.of_nat k; Z.of_nat k] = get q' [i; Z.of_nat k] * get r' [Z.of_nat k; Z.of_nat k])%R).
    { intros i Hi. pose proof (P i (Z.of_nat k) Hi ltac:(lia)) as X. rewrite <- (P' i (Z.of_nat k) Hi ltac:(lia)) in X.
      assert (Y : rsum n (fun l => get q0 [i; l] * get r0 [l; Z.of_nat k] - get q' [i; l] * get r' [l; Z.of_nat k])%R = 0%R) by (rewrite rsum_minus; lra).
      rewrite (@rsum_single n _ (Z.of_nat k)) in Y; [lra | lia |]. intros l Hl N. rewrite (Elow l Hl N). destruct (Z.lt_ge_cases l (Z.of_nat k)) as [Hlt|Hge].
      - destruct (IH l ltac:(lia) ltac:(lia)) as (Q & _). rewrite (Q i Hi). ring.
      - rewrite U' by lia. ring. }
    pose proof (D (Z.of_nat k) ltac:(lia)) as d0. pose proof (D' (Z.of_nat k) ltac:(lia)) as d1.
    assert (Er : get r0 [Z.of_nat k; Z.of_nat k] = get r' [Z.of_nat k; Z.of_nat k]).
    { assert (Sqr : (get r0 [Z.of_nat k; Z.of_nat k] * get r0 [Z.of_nat k; Z.of_nat k] = get r' [Z.of_nat k; Z.of_nat k] * get r' [Z.of_nat k; Z.of_nat k])%R).
      { pose proof (O (Z.of_nat k) (Z.of_nat k) ltac:(lia) ltac:(lia)) as X. pose proof (O' (Z.of_nat k) (Z.of_nat k) ltac:(lia) ltac:(lia)) as X'. rewrite Z.eqb_refl in X, X'.
        transitivity (rsum m (fun i => (get q0 [i; Z.of_nat k] * get r0 [Z.of_nat k; Z.of_nat k]) * (get q0 [i; Z.of_nat k] * get r0 [Z.of_nat k; Z.of_nat k]))%R).
        - rewrite (rsum_ext m _ (fun i => (get r0 [Z.of_nat k; Z.of_nat k] * get r0 [Z.of_nat k; Z.of_nat k]) * (get q0 [i; Z.of_nat k] * get q0 [i; Z.of_nat k]))%R) by (intros; ring). rewrite rsum_scal, X. ring.
        - rewrite (rsum_ext m _ (fun i => (get r' [Z.of_nat k; Z.of_nat k] * get r' [Z.of_nat k; Z.of_nat k]) * (get q' [i; Z.of_nat k] * get q' [i; Z.of_nat k]))%R) by (intros i Hi; rewrite (Ecol i Hi); ring). rewrite rsum_scal, X'. ring. }
      nra. }
    split; [|intros l Hl; destruct (Z.eq_dec l (Z.of_nat k)) as [->|N]; [exact Er | apply Elow; assumption]].
    intros i Hi. pose proof (Ecol i Hi) as X. rewrite Er in X. apply (Rmult_eq_reg_r (get r' [Z.of_nat k; Z.of_nat k])); [exact X | lra]. }
  split; (split; [congruence|]).
  - rewrite Sq. intros ix Hix. destruct ix as [|i [|j [|? ?]]]; cbn in Hix; try tauto. apply (Main n j); lia.
  - rewrite Sr. intros ix Hix. destruct ix as [|l [|j [|? ?]]]; cbn in Hix; try tauto. apply (Main n j); lia.
Qed.
(* @ex *)
Lemma gram_schmidt_qr_unique_ex_lem : let A := mkarr [2%nat; 1%nat] (fun ix => match ix with [0; 0] => 3 | _ => 4 end)%R in
  full_column_rank 2 1 A /\ qr_decomposition 2 1 A (mkarr [2%nat; 1%nat] (fun ix => match ix with [0; 0] => 3 / 5 | _ => 4 / 5 end)%R) (mkarr [1%nat; 1%nat] (fun _ => 5%R)).
Proof.
  intros A. split; [intros x H j Hj; pose proof (H 0 ltac:(lia)) as H1; cbn in H1; assert (j = 0) as -> by lia; lra|].
  split; [reflexivity|]. split; [reflexivity|]. split; [|split; [|split]].
  - intros a b Ha Hb. assert (a = 0) as -> by lia. assert (b = 0) as -> by lia. cbn. lra.
  - intros k j Hk Hj Hl. lia.
  - intros k _. cbn. lra.
  - intros i j Hi Hj. assert (j = 0) as -> by lia. assert (i = 0 \/ i = 1) as [-> | ->] by lia; cbn; lra.
Qed.
