(** Generated by tools/gen.py from FuncProps.v: property theorems only. *)
From Verif Require Import Prelude Func_model.
From Verif Require Import FuncProps.
Local Open Scope nat_scope.
Set Implicit Arguments.

(** C33. repeated(f, n)(x) is f applied n times to x (n = 0 gives x back), calling f exactly n times, on x, f(x), ..., f^(n-1)(x). *)
Theorem repeated_is_iteration : forall (X : Type) (f : X -> X) n x,
  repeated 0 f n x = (Nat.iter n f x, map (fun i => Nat.iter i f x) (seq 0 n)).
Proof. exact (@repeated_is_iteration_lem). Qed.
Print Assumptions repeated_is_iteration.

(** The hypotheses are met by a concrete case. *)
Example repeated_is_iteration_ex : repeated 0 (fun k => 3 * k + 1)%nat 4 2 = (202, [2; 7; 22; 67]).
Proof. exact (@repeated_is_iteration_ex_lem). Qed.

(** C33. repeated(f, m + n) is repeated(f, m) after repeated(f, n), for all m and n. *)
Theorem repeated_add : forall (X : Type) (f : X -> X) m n x,
  fst (repeated 0 f (m + n) x) = fst (repeated 0 f m (fst (repeated 0 f n x))).
Proof. exact (@repeated_add_lem). Qed.
Print Assumptions repeated_add.

(** The hypotheses are met by a concrete case. *)
Example repeated_add_ex : fst (repeated 0 S (2 + 3) 10) = fst (repeated 0 S 2 (fst (repeated 0 S 3 10))).
Proof. exact (@repeated_add_ex_lem). Qed.

(** C33. repeating a repeated function: repeated(repeated(f, m), n) is repeated(f, n * m). *)
Theorem repeated_nested : forall (X : Type) (f : X -> X) m n x,
  fst (repeated 0 (fun y => fst (repeated 0 f m y)) n x) = fst (repeated 0 f (n * m) x).
Proof. exact (@repeated_nested_lem). Qed.
Print Assumptions repeated_nested.

(** The hypotheses are met by a concrete case. *)
Example repeated_nested_ex : fst (repeated 0 (fun y => fst (repeated 0 S 2 y)) 3 10) = 16.
Proof. exact (@repeated_nested_ex_lem). Qed.

(** C33. trajectory(f, n, post)(x) returns f^n(x) and n frames, the i-th (from 0) being post(f^(i+1)(x)), or post(f^i(x)) with start_with_input. *)
Theorem trajectory_frames : forall (X Y : Type) (f : X -> X) n (post : X -> Y) (b : bool) x,
  exists xf frames calls, trajectory 0 f n post b x = (xf, frames, calls) /\
    xf = Nat.iter n f x /\ length frames = n /\
    (forall i, i < n -> nth_error frames i = Some (post (Nat.iter (if b then i else S i) f x))).
Proof. exact (@trajectory_frames_lem). Qed.
Print Assumptions trajectory_frames.

(** The hypotheses are met by a concrete case. *)
Example trajectory_frames_ex :
  trajectory 0 S 3 (fun k => 2 * k) false 5 = (8, [12; 14; 16], [5; 6; 7]) /\ trajectory 0 S 3 (fun k => 2 * k) true 5 = (8, [10; 12; 14], [5; 6; 7]).
Proof. exact (@trajectory_frames_ex_lem). Qed.

(** C33. Frames started with the input are the initial frame followed by the frames of a one step shorter trajectory without it. *)
Theorem trajectory_start_with_input_shift : forall (X Y : Type) (f : X -> X) n (post : X -> Y) x,
  snd (fst (trajectory 0 f (S n) post true x)) = post x :: snd (fst (trajectory 0 f n post false x)).
Proof. exact (@trajectory_start_with_input_shift_lem). Qed.
Print Assumptions trajectory_start_with_input_shift.

(** The hypotheses are met by a concrete case. *)
Example trajectory_start_with_input_shift_ex : snd (fst (trajectory 0 S 3 (fun k => 2 * k) true 5)) = [10; 12; 14].
Proof. exact (@trajectory_start_with_input_shift_ex_lem). Qed.

(** C34. Under init_context (any nesting depth) repeated calls its function exactly once, on the input, whatever the number of steps; trajectory does too, and still returns one (copied) frame per step. *)
Theorem init_context_single_call : forall (X Y : Type) (f : X -> X) (post : X -> Y) b depth n x,
  snd (repeated (S depth) f n x) = [x] /\ fst (repeated (S depth) f n x) = f x /\
  exists frame, trajectory (S depth) f n post b x = (f x, repeat frame n, [x]).
Proof. exact (@init_context_single_call_lem). Qed.
Print Assumptions init_context_single_call.

(** The hypotheses are met by a concrete case. *)
Example init_context_single_call_ex : repeated 2 S 5 7 = (8, [7]).
Proof. exact (@init_context_single_call_ex_lem). Qed.

(** C34. Whatever a program does (nested contexts, scans, exceptions raised inside contexts, caught or not), the counter afterwards is what it was before: leaving the outermost context always restores the normal mode. *)
Theorem init_context_restored : forall (X : Type) (p : prog X) c c' e l,
  run c p = (c', e, l) -> c' = c.
Proof. exact (@init_context_restored_lem). Qed.
Print Assumptions init_context_restored.

(** The hypotheses are met by a concrete case. *)
Example init_context_restored_ex :
  run 0 (PSeq (PTry (PWith (PSeq (PWith (PScan S 4 10)) PRaise))) (PScan S 3 20)) = (0, false, [[10]; [20; 21; 22]]).
Proof. exact (@init_context_restored_ex_lem). Qed.

(** C34. Every scan lexically inside a context calls its function once, and every scan outside all contexts calls it once per step, even after contexts that were left by an exception. *)
Theorem init_context_calls : forall (X : Type) (p : prog X),
  exists e l, run 0 p = (0, e, l) /\ executes false p e l.
Proof. exact (@init_context_calls_lem). Qed.
Print Assumptions init_context_calls.

(** The hypotheses are met by a concrete case. *)
Example init_context_calls_ex :
  run 0 (PSeq (PTry (PWith (PSeq (PScan S 4 10) PRaise))) (PScan S 2 20)) = (0, false, [[10]; [20; 21]]).
Proof. exact (@init_context_calls_ex_lem). Qed.
