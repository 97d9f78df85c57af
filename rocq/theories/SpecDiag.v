(** * Specification vocabulary for fast diagonalisation (used in theorem statements only) *)
From Verif Require Import Prelude NdArr SpecLin Cplx FastDiag_model.
Set Implicit Arguments.

(** [func] gives the same answer for a real number as for the corresponding complex number. *)
Definition real_on_reals (func : ufun) : Prop := forall x : R, onC func (RtoC x) = RtoC (onR func x).
(** What each implementation requires of the operators (beyond being square): matmul needs eigh to deliver
    eigendecompositions, fft and rfft need (symmetric) circulant matrices, rfft an even last axis. *)
Definition usable (eigh : arr R -> arr R * arr R) (ops : list (arr R)) (i : impl) : Prop :=
  match i with
  | Matmul => Forall (fun A => eigen_decomposition A (eigh A)) ops
  | Fft => Forall circulant ops /\ Forall symmetric ops
  | Rfft => Forall circulant ops /\ Forall symmetric ops /\
            forall l A, ops = l ++ [A] -> Nat.odd (nth 0 (shp A) 0%nat) = false
  | OtherImpl => False
  end.
(** What the choice of implementation requires of operators known to be symmetric (and circulant when every
    axis is periodic): np.linalg.eigh must deliver eigendecompositions where it is used (matmul; also the
    default, which may pick it), rfft needs an even last axis.  Without periodicity matmul is always used. *)
Definition implementation_ready (eigh : arr R -> arr R * arr R) (ops : list (arr R)) (periodic : bool) (imp : option impl) : Prop :=
  match (if periodic then imp else Some Matmul) with
  | None | Some Matmul => Forall (fun A => eigen_decomposition A (eigh A)) ops
  | Some Fft => True
  | Some Rfft => forall l A, ops = l ++ [A] -> Nat.odd (nth 0 (shp A) 0%nat) = false
  | Some OtherImpl => False
  end.
