(** * Model of jax_cfd/base/funcutils.py *)
From Verif Require Import Prelude.
Set Implicit Arguments.

(** [jax.lax.scan(f, init, None, length)] (JAX documentation: a Python loop of [length] calls of [f]
    collecting the outputs); the third component is the sequence of carries [f] was called on. *)
Fixpoint lax_scan {X Y : Type} (f : X -> X * Y) (init : X) (length : nat) : X * list Y * list X :=
  match length with
  | O => (init, [], [])
  | S n => let '(c, y) := f init in
           let '(cf, ys, calls) := lax_scan f c n in
           (cf, y :: ys, init :: calls)
  end.

(** funcutils.py:67-82 [scan] with [xs=None]; [initializing] is the value of the module variable
    [_INITIALIZING] (line 37). A stack of copies is modelled as the list of its slices. *)
Definition scan {X Y : Type} (initializing : nat) (f : X -> X * Y) (init : X) (length : nat) : X * list Y * list X :=
  match initializing with
  | O => lax_scan f init length
  | S _ => let '(carry, y0) := f init in (carry, repeat y0 length, [init])
  end.

(** funcutils.py:85-91 [repeated] *)
Definition repeated {X : Type} (initializing : nat) (f : X -> X) (steps : nat) (x : X) : X * list X :=
  let g := fun x => (f x, tt) in
  let '(xf, _, calls) := scan initializing g x steps in (xf, calls).

(** funcutils.py:98-130 [trajectory] *)
Definition trajectory {X Y : Type} (initializing : nat) (step_fn : X -> X) (steps : nat) (post : X -> Y)
  (start_with_input : bool) (x : X) : X * list Y * list X :=
  let step := fun carry_in => let carry_out := step_fn carry_in in
                              (carry_out, post (if start_with_input then carry_in else carry_out)) in
  scan initializing step x steps.

(** ** Programs using [init_context] (funcutils.py:40-56, a context manager with try/finally).
    Statements: a scan of [n] steps of some step function, sequencing, [raise], [with init_context():],
    [try: ... except: pass]. *)
Inductive prog (X : Type) : Type :=
| PScan (f : X -> X) (n : nat) (x : X)
| PSeq (p q : prog X)
| PRaise
| PWith (p : prog X)
| PTry (p : prog X).
Arguments PRaise {X}.

(** State: the counter. Result: the counter afterwards, whether an exception escapes, and for each
    executed scan the list of arguments its function was called on. *)
Fixpoint run {X : Type} (counter : nat) (p : prog X) : nat * bool * list (list X) :=
  match p with
  | PScan f n x => (counter, false, [snd (repeated counter f n x)])
  | PSeq p q => let '(c, e, l) := run counter p in
                if e then (c, true, l)
                else let '(c', e', l') := run c q in (c', e', l ++ l')
  | PRaise => (counter, true, [])
  | PWith p => let '(c, e, l) := run (S counter) p in     (* _INITIALIZING += 1; try: yield *)
               (pred c, e, l)                             (* finally: _INITIALIZING -= 1 *)
  | PTry p => let '(c, e, l) := run counter p in (c, false, l)
  end.
