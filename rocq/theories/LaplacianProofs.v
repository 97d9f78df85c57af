(** * 1-d Laplacian matrices: entries and action *)
From Verif Require Import Prelude NdArr Grids_model Spec SpecLin LinAlg Boundaries_model Laplacian_model.
Set Implicit Arguments.
Local Open Scope Z_scope.

Definition dl (i j : Z) : R := if i =? j then 1%R else 0%R.
Lemma rsum_dl n i f : 0 <= i < Z.of_nat n -> rsum n (fun j => dl i j * f j)%R = f i.
Proof. intros H. exact (@gsum_delta R 0%R 1%R Rplus Rmult Rminus Ropp RTheory n i f H). Qed.
Lemma rsum_dl0 n i f : ~ (0 <= i < Z.of_nat n) -> rsum n (fun j => dl i j * f j)%R = 0%R.
Proof.
  intros H. rewrite (@rsum_ext n _ (fun _ => 0%R)); [apply rsum_0|]. intros j Hj. unfold dl. destruct (Z.eqb_spec i j); [lia | ring].
Qed.
(** Tridiagonal matrix with boundary terms, and the periodic one. *)
Definition tri (n : nat) (h s1 s2 : R) (i j : Z) : R :=
  ((-2) * dl i j + dl (i - 1) j + dl (i + 1) j + s1 * (if i =? 0 then dl 0 j else 0) + s2 * (if i =? Z.of_nat n - 1 then dl (Z.of_nat n - 1) j else 0))%R.

Lemma mod_range n i j : 0 <= i < n -> 0 <= j < n -> (i - j) mod n = if i <? j then i - j + n else i - j.
Proof.
  intros Hi Hj. destruct (Z.ltb_spec i j).
  - symmetry. apply Z.mod_unique with (q := -1); lia.
  - apply Z.mod_small; lia.
Qed.
Ltac dcase := repeat match goal with |- context [?a =? ?b] => destruct (Z.eqb_spec a b); try lia end; cbn [andb orb].
Lemma col_periodic n h i j : h <> 0%R -> (3 <= n)%nat -> 0 <= i < Z.of_nat n -> 0 <= j < Z.of_nat n ->
  lap_column n h ((i - j) mod Z.of_nat n) = ((((-2) * dl i j + dl ((i - 1) mod Z.of_nat n) j + dl ((i + 1) mod Z.of_nat n) j)) / h ^ 2)%R.
Proof.
  intros Hh Hn Hi Hj. rewrite mod_range by lia. unfold lap_column, dl.
  assert (E1 : (i - 1) mod Z.of_nat n = if i =? 0 then Z.of_nat n - 1 else i - 1).
  { destruct (Z.eqb_spec i 0); [subst; symmetry; apply Z.mod_unique with (q := -1); lia | apply Z.mod_small; lia]. }
  assert (E2 : (i + 1) mod Z.of_nat n = if i =? Z.of_nat n - 1 then 0 else i + 1).
  { destruct (Z.eqb_spec i (Z.of_nat n - 1)); [subst; symmetry; apply Z.mod_unique with (q := 1); lia | apply Z.mod_small; lia]. }
  rewrite E1, E2. clear E1 E2. destruct (Z.eqb_spec i 0); destruct (Z.eqb_spec i (Z.of_nat n - 1)); try lia; destruct (Z.ltb_spec i j); dcase; field; auto.
Qed.
Lemma rsum_periodic n h i f : h <> 0%R -> (3 <= n)%nat -> 0 <= i < Z.of_nat n ->
  rsum n (fun j => lap_column n h ((i - j) mod Z.of_nat n) * f j)%R = ((f ((i + 1) mod Z.of_nat n) - 2 * f i + f ((i - 1) mod Z.of_nat n)) / h ^ 2)%R.
Proof.
  intros Hh Hn Hi.
  rewrite (@rsum_ext n _ (fun j => / h ^ 2 * ((-2) * (dl i j * f j) + (dl ((i - 1) mod Z.of_nat n) j * f j + dl ((i + 1) mod Z.of_nat n) j * f j)))%R).
  2:{ intros j Hj. rewrite col_periodic by auto. field. auto. }
  rewrite rsum_scal, rsum_plus, rsum_plus, rsum_scal. rewrite !rsum_dl; [field; auto | | | lia]; apply Z.mod_pos_bound; lia.
Qed.
Lemma rsum_tri n h s1 s2 i f : h <> 0%R -> 0 <= i < Z.of_nat n ->
  rsum n (fun j => tri n h s1 s2 i j / h ^ 2 * f j)%R =
  (((if i =? Z.of_nat n - 1 then s2 * f i else f (i + 1)%Z) - 2 * f i + (if i =? 0 then s1 * f i else f (i - 1)%Z)) / h ^ 2)%R.
Proof.
  intros Hh Hi.
  rewrite (@rsum_ext n _ (fun j => / h ^ 2 * ((-2) * (dl i j * f j) + (dl (i - 1) j * f j + (dl (i + 1) j * f j + (s1 * (if i =? 0 then 1 else 0) * (dl 0 j * f j) + s2 * (if i =? Z.of_nat n - 1 then 1 else 0) * (dl (Z.of_nat n - 1) j * f j))))))%R).
  2:{ intros j Hj. unfold tri. destruct (i =? 0); destruct (i =? Z.of_nat n - 1); field; auto. }
  rewrite rsum_scal, rsum_plus, rsum_plus, rsum_plus, rsum_plus, !rsum_scal. rewrite (@rsum_dl n i f), (@rsum_dl n 0 f), (@rsum_dl n (Z.of_nat n - 1) f) by lia.
  destruct (Z.eqb_spec i 0) as [H0|H0]; destruct (Z.eqb_spec i (Z.of_nat n - 1)) as [H1|H1].
  - rewrite !rsum_dl0 by lia. rewrite <- H1, H0. field. auto.
  - rewrite (@rsum_dl0 n (i - 1) f) by lia. rewrite rsum_dl by lia. replace (f 0) with (f i) by (rewrite H0; reflexivity). field. auto.
  - rewrite (@rsum_dl n (i - 1) f) by lia. rewrite rsum_dl0 by lia. rewrite <- H1. field. auto.
  - rewrite !rsum_dl by lia. field. auto.
Qed.
(** Entries after adapting both sides (n >= 3). *)
Definition sgn (t : bctype) : R := match t with Neumann => 1 | _ => -1 end.
Definition DN (t : bctype) : Prop := t = Dirichlet \/ t = Neumann.
Lemma wall_entries n h t1 t2 i j M : h <> 0%R -> (3 <= n)%nat -> DN t1 -> DN t2 -> laplacian_matrix n h = Ok M ->
  0 <= i < Z.of_nat n -> 0 <= j < Z.of_nat n ->
  get (lap_boundary (sgn t2) h true (lap_boundary (sgn t1) h false M)) [i; j] = (tri n h (sgn t1) (sgn t2) i j / h ^ 2)%R.
Proof.
  intros Hh Hn _ _ E Hi Hj. unfold laplacian_matrix in E. destruct (Nat.ltb_spec n 2); [lia|]. injection E as <-.
  generalize (sgn t1), (sgn t2). intros s1 s2.
  unfold lap_boundary, mset. cbn [shp get nth]. unfold tri, dl.
  rewrite !mod_range by lia. unfold lap_column.
  destruct (Z.eqb_spec i 0); destruct (Z.eqb_spec i (Z.of_nat n - 1)); try lia; destruct (Z.eqb_spec j 0); destruct (Z.eqb_spec j (Z.of_nat n - 1)); try lia; subst; cbn [andb];
  repeat match goal with |- context [?a <? ?b] => destruct (Z.ltb_spec a b); try lia end; dcase; try (field; auto).
Qed.
