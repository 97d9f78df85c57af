(** * Vocabulary for mirror images of periodic flows *)
From Verif Require Import Prelude NdArr Grids_model Spec Boundaries_model TimeStep_model SpecNS.
Set Implicit Arguments.
Local Open Scope Z_scope.

(** The cell opposite to [ix] in the mirror that exchanges cell 0 and cell [c] of axis [a]. *)
Definition mirror_cell (a : nat) (c : Z) (ix : list Z) : list Z := upd a (c - nth a ix 0) ix.
(** [F'] is the mirror image of values [F] kept at the centres of the cells along axis [a]. *)
Definition mirrored_values (n a : nat) (c : Z) (F F' : list Z -> R) : Prop :=
  forall ix, length ix = n -> F' ix = F (mirror_cell a c ix).
(** The mirror image of a vector field of which component [i] is kept half a cell above the centres along axis [i]:
    components along the mirror are carried over, the component normal to it changes sign, and its values
    (on the upper faces of the cells) are carried to the opposite faces: the upper face of a cell is the lower face,
    that is the upper face of the previous cell, of the opposite cell. *)
Definition mirrored_vector (n a : nat) (c : Z) (F F' : nat -> list Z -> R) : Prop :=
  forall i ix, (i < n)%nat -> length ix = n ->
    F' i ix = if (i =? a)%nat then (- F i (mirror_cell a (c - 1) ix))%R else F i (mirror_cell a c ix).
(** The same for velocities and for lists of fields (extended periodically). *)
Definition mirrored_velocity (n a : nat) (c : Z) (v v' : list gvar) : Prop := mirrored_vector n a c (vval v) (vval v').
Definition field_at (l : list garr) (i : nat) (ix : list Z) : R :=
  match nth_error l i with Some w => pval w ix | None => 0%R end.
Definition mirrored_fields (n a : nat) (c : Z) (l l' : list garr) : Prop := mirrored_vector n a c (field_at l) (field_at l').

(** [f] and [f'] treat mirror images alike: they take velocities that are mirror images of each other to vector fields
    (on the faces) that are mirror images of each other. *)
Definition mirror_alike (g : grid) (o : list Q) (bs : list bcs) (a : nat) (c : Z) (f f' : list gvar -> result (list garr)) : Prop :=
  forall v v', periodic_velocity g o bs v -> periodic_velocity g o bs v' -> mirrored_velocity (gndim g) a c v v' ->
    exists l l' F F', f v = Ok l /\ f' v' = Ok l' /\ fields_at g v l F /\ fields_at g v' l' F' /\ mirrored_fields (gndim g) a c l l'.
Definition optional_mirror (g : grid) (o : list Q) (bs : list bcs) (a : nat) (c : Z) (f f' : option (list gvar -> result (list garr))) : Prop :=
  match f, f' with
  | None, None => True
  | Some f, Some f' => mirror_alike g o bs a c f f'
  | _, _ => False
  end.
