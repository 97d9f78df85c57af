(** * Properties C33, C34: iteration helpers *)
From Verif Require Import Prelude Func_model.
Set Implicit Arguments.
Local Open Scope nat_scope.

Lemma iter_r {X} (f : X -> X) n x : Nat.iter n f (f x) = Nat.iter (S n) f x.
Proof. induction n as [|n IH]; [reflexivity|]. change (f (Nat.iter n f (f x)) = f (Nat.iter (S n) f x)). rewrite IH. reflexivity. Qed.
Lemma iter_plus {X} (f : X -> X) m n x : Nat.iter (m + n) f x = Nat.iter m f (Nat.iter n f x).
Proof. induction m as [|m IH]; [reflexivity|]. change (f (Nat.iter (m + n) f x) = f (Nat.iter m f (Nat.iter n f x))). rewrite IH. reflexivity. Qed.

Lemma lax_scan_spec {X Y} (f : X -> X * Y) (n : nat) (x : X) :
  let s := fun x => fst (f x) in
  lax_scan f x n = (Nat.iter n s x, map (fun i => snd (f (Nat.iter i s x))) (seq 0 n), map (fun i => Nat.iter i s x) (seq 0 n)).
Proof.
  intros s. revert x. induction n as [|n IH]; intros x; [reflexivity|].
  cbn [lax_scan]. destruct (f x) as [c y] eqn:E. rewrite IH.
  assert (Hc : c = s x) by (unfold s; rewrite E; reflexivity). subst c.
  assert (Hi : forall i, Nat.iter i s (s x) = Nat.iter (S i) s x) by (intros i; apply iter_r).
  cbn [seq map]. rewrite <- seq_shift, !map_map. f_equal; [f_equal|].
  - apply Hi.
  - f_equal; [simpl; rewrite E; reflexivity|]. apply map_ext; intros i. rewrite Hi; reflexivity.
  - f_equal. apply map_ext; intros i. apply Hi.
Qed.

(* @prop C33 repeated(f, n)(x) is f applied n times to x (n = 0 gives x back), calling f exactly n times, on x, f(x), ..., f^(n-1)(x). *)
Lemma repeated_is_iteration_lem : forall (X : Type) (f : X -> X) n x,
  repeated 0 f n x = (Nat.iter n f x, map (fun i => Nat.iter i f x) (seq 0 n)).
Proof. intros X f n x. unfold repeated, scan. rewrite lax_scan_spec. cbn [fst]. reflexivity. Qed.
(* @ex *)
Lemma repeated_is_iteration_ex_lem : repeated 0 (fun k => 3 * k + 1)%nat 4 2 = (202, [2; 7; 22; 67]).
Proof. reflexivity. Qed.

(* @prop C33 repeated(f, m + n) is repeated(f, m) after repeated(f, n), for all m and n. *)
Lemma repeated_add_lem : forall (X : Type) (f : X -> X) m n x,
  fst (repeated 0 f (m + n) x) = fst (repeated 0 f m (fst (repeated 0 f n x))).
Proof. intros. rewrite !repeated_is_iteration_lem. cbn [fst]. apply iter_plus. Qed.
(* @ex *)
Lemma repeated_add_ex_lem : fst (repeated 0 S (2 + 3) 10) = fst (repeated 0 S 2 (fst (repeated 0 S 3 10))).
Proof. reflexivity. Qed.

(* @prop C33 repeating a repeated function: repeated(repeated(f, m), n) is repeated(f, n * m). *)
Lemma repeated_nested_lem : forall (X : Type) (f : X -> X) m n x,
  fst (repeated 0 (fun y => fst (repeated 0 f m y)) n x) = fst (repeated 0 f (n * m) x).
Proof.
  intros X f m n x. rewrite !(@repeated_is_iteration_lem X). cbn [fst].
  induction n as [|n IH]; [reflexivity|].
  change (fst (repeated 0 f m (Nat.iter n (fun y => fst (repeated 0 f m y)) x)) = Nat.iter (m + n * m) f x).
  rewrite IH, repeated_is_iteration_lem, iter_plus. reflexivity.
Qed.
(* @ex *)
Lemma repeated_nested_ex_lem : fst (repeated 0 (fun y => fst (repeated 0 S 2 y)) 3 10) = 16.
Proof. reflexivity. Qed.

(* @prop C33 trajectory(f, n, post)(x) returns f^n(x) and n frames, the i-th (from 0) being post(f^(i+1)(x)), or post(f^i(x)) with start_with_input. *)
Lemma trajectory_frames_lem : forall (X Y : Type) (f : X -> X) n (post : X -> Y) (b : bool) x,
  exists xf frames calls, trajectory 0 f n post b x = (xf, frames, calls) /\
    xf = Nat.iter n f x /\ length frames = n /\
    (forall i, i < n -> nth_error frames i = Some (post (Nat.iter (if b then i else S i) f x))).
Proof.
  intros X Y f n post b x. unfold trajectory, scan. rewrite lax_scan_spec. cbn [fst snd].
  eexists; eexists; eexists. split; [reflexivity|]. split; [reflexivity|]. rewrite map_length, seq_length. split; [reflexivity|].
  intros i Hi. rewrite nth_error_map. rewrite (nth_error_nth' _ 0) by (rewrite seq_length; auto). rewrite seq_nth by auto.
  cbn [option_map plus]. destruct b; reflexivity.
Qed.
(* @ex *)
Lemma trajectory_frames_ex_lem :
  trajectory 0 S 3 (fun k => 2 * k) false 5 = (8, [12; 14; 16], [5; 6; 7]) /\ trajectory 0 S 3 (fun k => 2 * k) true 5 = (8, [10; 12; 14], [5; 6; 7]).
Proof. split; reflexivity. Qed.

(* @prop C33 Frames started with the input are the initial frame followed by the frames of a one step shorter trajectory without it. *)
Lemma trajectory_start_with_input_shift_lem : forall (X Y : Type) (f : X -> X) n (post : X -> Y) x,
  snd (fst (trajectory 0 f (S n) post true x)) = post x :: snd (fst (trajectory 0 f n post false x)).
Proof.
  intros X Y f n post x. unfold trajectory, scan. rewrite !lax_scan_spec. cbn [fst snd seq map Nat.iter nat_rect].
  f_equal. rewrite <- seq_shift, map_map. apply map_ext. intros i. reflexivity.
Qed.
(* @ex *)
Lemma trajectory_start_with_input_shift_ex_lem : snd (fst (trajectory 0 S 3 (fun k => 2 * k) true 5)) = [10; 12; 14].
Proof. reflexivity. Qed.

(* @prop C34 Under init_context (any nesting depth) repeated calls its function exactly once, on the input, whatever the number of steps; trajectory does too, and still returns one (copied) frame per step. *)
Lemma init_context_single_call_lem : forall (X Y : Type) (f : X -> X) (post : X -> Y) b depth n x,
  snd (repeated (S depth) f n x) = [x] /\ fst (repeated (S depth) f n x) = f x /\
  exists frame, trajectory (S depth) f n post b x = (f x, repeat frame n, [x]).
Proof. intros. split; [reflexivity|]. split; [reflexivity|]. eexists. reflexivity. Qed.
(* @ex *)
Lemma init_context_single_call_ex_lem : repeated 2 S 5 7 = (8, [7]).
Proof. reflexivity. Qed.

Lemma run_counter_aux {X} (p : prog X) : forall c, fst (fst (run c p)) = c.
Proof.
  induction p as [f n x|p IHp q IHq| |p IH|p IH]; intros c; cbn [run]; auto.
  - specialize (IHp c). destruct (run c p) as [[c1 e1] l1]. cbn [fst] in IHp. subst c1. destruct e1; [reflexivity|].
    specialize (IHq c). destruct (run c q) as [[c2 e2] l2]. exact IHq.
  - specialize (IH (S c)). destruct (run (S c) p) as [[c1 e1] l1]. cbn [fst] in *. subst c1. reflexivity.
  - specialize (IH c). destruct (run c p) as [[c1 e1] l1]. exact IH.
Qed.

(* @prop C34 Whatever a program does (nested contexts, scans, exceptions raised inside contexts, caught or not), the counter afterwards is what it was before: leaving the outermost context always restores the normal mode. *)
Lemma init_context_restored_lem : forall (X : Type) (p : prog X) c c' e l,
  run c p = (c', e, l) -> c' = c.
Proof. intros X p c c' e l H. pose proof (run_counter_aux p c) as Hc. rewrite H in Hc. exact Hc. Qed.
(* @ex *)
Lemma init_context_restored_ex_lem :
  run 0 (PSeq (PTry (PWith (PSeq (PWith (PScan S 4 10)) PRaise))) (PScan S 3 20)) = (0, false, [[10]; [20; 21; 22]]).
Proof. reflexivity. Qed.

(** Specification of the calls made: the same program text executed with "inside some context" as a flag. *)
Inductive executes {X : Type} : bool -> prog X -> bool -> list (list X) -> Prop :=
| ExScanOut f n x : executes false (PScan f n x) false [map (fun i => Nat.iter i f x) (seq 0 n)]
| ExScanIn f n x : executes true (PScan f n x) false [[x]]
| ExSeqRaise b p q l : executes b p true l -> executes b (PSeq p q) true l
| ExSeq b p q l e' l' : executes b p false l -> executes b q e' l' -> executes b (PSeq p q) e' (l ++ l')
| ExRaise b : executes b PRaise true []
| ExWith b p e l : executes true p e l -> executes b (PWith p) e l
| ExTry b p e l : executes b p e l -> executes b (PTry p) false l.

(* @prop C34 Every scan lexically inside a context calls its function once, and every scan outside all contexts calls it once per step, even after contexts that were left by an exception. *)
Lemma init_context_calls_lem : forall (X : Type) (p : prog X),
  exists e l, run 0 p = (0, e, l) /\ executes false p e l.
Proof.
  intros X p.
  assert (Hg : forall (p : prog X) c, exists e l, run c p = (c, e, l) /\ executes (negb (c =? 0)) p e l).
  { clear p. induction p as [f n x|p IHp q IHq| |p IH|p IH]; intros c; cbn [run].
    - destruct c as [|c].
      + rewrite repeated_is_iteration_lem. cbn [snd]. eexists; eexists; split; [reflexivity|]. constructor.
      + eexists; eexists; split; [reflexivity|]. constructor.
    - destruct (IHp c) as (e & l & -> & Hp). destruct e.
      + exists true, l. split; [reflexivity|]. apply ExSeqRaise; auto.
      + destruct (IHq c) as (e' & l' & -> & Hq). exists e', (l ++ l'). split; [reflexivity|]. apply ExSeq; auto.
    - eexists; eexists; split; [reflexivity|]. constructor.
    - destruct (IH (S c)) as (e & l & -> & Hp). exists e, l. split; [reflexivity|]. apply ExWith. exact Hp.
    - destruct (IH c) as (e & l & -> & Hp). exists false, l. split; [reflexivity|]. eapply ExTry; eauto. }
  exact (Hg p 0).
Qed.
(* @ex *)
Lemma init_context_calls_ex_lem :
  run 0 (PSeq (PTry (PWith (PSeq (PScan S 4 10) PRaise))) (PScan S 2 20)) = (0, false, [[10]; [20; 21]]).
Proof. reflexivity. Qed.
