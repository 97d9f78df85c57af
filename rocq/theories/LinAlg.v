(** * Separable linear operators over a commutative ring (infrastructure; models nothing by itself).

    Index functions [list Z -> T] restricted to a shape [s]; one square matrix [Z -> Z -> T] per axis. *)
From Verif Require Import Prelude NdArr.
Set Implicit Arguments.
Local Open Scope Z_scope.

Section Gen.
Variables (T : Type) (r0 r1 : T) (radd rmul rsub : T -> T -> T) (ropp : T -> T).
Hypothesis RT : ring_theory r0 r1 radd rmul rsub ropp eq.
Add Ring TR : RT.
Notation "a [+] b" := (radd a b) (at level 50, left associativity).
Notation "a [*] b" := (rmul a b) (at level 40, left associativity).

Fixpoint gsum (n : nat) (f : Z -> T) : T :=
  match n with
  | O => r0
  | S m => gsum m f [+] f (Z.of_nat m)
  end.
Lemma gsum_ext n f g : (forall i, 0 <= i < Z.of_nat n -> f i = g i) -> gsum n f = gsum n g.
Proof. induction n as [|n IH]; intros H; simpl; [reflexivity|]. rewrite IH by (intros; apply H; lia). rewrite (H (Z.of_nat n)) by lia. reflexivity. Qed.
Lemma gsum_plus n f g : gsum n (fun i => f i [+] g i) = gsum n f [+] gsum n g.
Proof. induction n as [|n IH]; simpl; [ring|]. rewrite IH. ring. Qed.
Lemma gsum_scal n c f : gsum n (fun i => c [*] f i) = c [*] gsum n f.
Proof. induction n as [|n IH]; simpl; [ring|]. rewrite IH. ring. Qed.
Lemma gsum_scal_r n c f : gsum n (fun i => f i [*] c) = gsum n f [*] c.
Proof. induction n as [|n IH]; simpl; [ring|]. rewrite IH. ring. Qed.
Lemma gsum_zero n : gsum n (fun _ => r0) = r0.
Proof. induction n as [|n IH]; simpl; [reflexivity|]. rewrite IH. ring. Qed.
Lemma gsum_swap n m f : gsum n (fun i => gsum m (f i)) = gsum m (fun j => gsum n (fun i => f i j)).
Proof.
  induction n as [|n IH]; simpl; [symmetry; apply gsum_zero|]. rewrite IH. rewrite gsum_plus. reflexivity.
Qed.
(** Sum against a Kronecker delta. *)
Lemma gsum_delta n i f : 0 <= i < Z.of_nat n -> gsum n (fun j => (if i =? j then r1 else r0) [*] f j) = f i.
Proof.
  induction n as [|n IH]; intros Hi; [lia|]. simpl gsum.
  destruct (Z.eqb_spec i (Z.of_nat n)) as [->|Hn].
  - rewrite (@gsum_ext n _ (fun _ => r0)). rewrite gsum_zero. ring.
    intros j Hj. destruct (Z.eqb_spec (Z.of_nat n) j); [lia|]. ring.
  - rewrite IH by lia. ring.
Qed.

(** [kron s Ms u]: every matrix applied along its axis. *)
Fixpoint kron (s : list nat) (Ms : list (Z -> Z -> T)) (u : list Z -> T) (ix : list Z) : T :=
  match s, Ms, ix with
  | n :: s', M :: Ms', i :: ix' => gsum n (fun j => M i j [*] kron s' Ms' (fun jx => u (j :: jx)) ix')
  | _, _, _ => u []
  end.
(** [opsum s As u]: the sum over the axes of the matrix applied along that axis only. *)
Fixpoint opsum (s : list nat) (As : list (Z -> Z -> T)) (u : list Z -> T) (ix : list Z) : T :=
  match s, As, ix with
  | n :: s', A :: As', i :: ix' => gsum n (fun j => A i j [*] u (j :: ix')) [+] opsum s' As' (fun jx => u (i :: jx)) ix'
  | _, _, _ => r0
  end.
(** Sum of one eigenvalue per axis. *)
Fixpoint lamsum (Ls : list (Z -> T)) (kx : list Z) : T :=
  match Ls, kx with
  | L :: Ls', k :: kx' => L k [+] lamsum Ls' kx'
  | _, _ => r0
  end.

Lemma kron_ext s Ms u w ix : length Ms = length s -> (forall jx, inb s jx -> u jx = w jx) -> inb s ix -> kron s Ms u ix = kron s Ms w ix.
Proof.
  revert Ms u w ix. induction s as [|n s IH]; intros [|M Ms] u w [|i ix] HL H Hi; simpl in *; try lia; try tauto.
  - apply H. exact I.
  - apply gsum_ext. intros j Hj. f_equal. apply IH; [lia | | tauto]. intros jx Hjx. apply H. simpl. auto.
Qed.
Lemma kron_plus s Ms u w ix : length Ms = length s -> length ix = length s -> kron s Ms (fun jx => u jx [+] w jx) ix = kron s Ms u ix [+] kron s Ms w ix.
Proof.
  revert Ms u w ix. induction s as [|n s IH]; intros [|M Ms] u w [|i ix] HL Hi; simpl in *; try lia; [reflexivity|].
  rewrite <- gsum_plus. apply gsum_ext. intros j Hj. rewrite IH by lia. ring.
Qed.
Lemma kron_scal s Ms c u ix : length Ms = length s -> length ix = length s -> kron s Ms (fun jx => c [*] u jx) ix = c [*] kron s Ms u ix.
Proof.
  revert Ms u ix. induction s as [|n s IH]; intros [|M Ms] u [|i ix] HL Hi; simpl in *; try lia; [reflexivity|].
  rewrite <- gsum_scal. apply gsum_ext. intros j Hj. rewrite IH by lia. ring.
Qed.
Lemma kron_zero s Ms ix : length Ms = length s -> length ix = length s -> kron s Ms (fun _ => r0) ix = r0.
Proof.
  revert Ms ix. induction s as [|n s IH]; intros [|M Ms] [|i ix] HL Hi; simpl in *; try lia; [reflexivity|].
  rewrite (@gsum_ext n _ (fun _ => r0)); [apply gsum_zero|]. intros j Hj. rewrite IH by lia. ring.
Qed.
Lemma kron_gsum s Ms m (f : Z -> list Z -> T) ix : length Ms = length s -> length ix = length s ->
  kron s Ms (fun jx => gsum m (fun k => f k jx)) ix = gsum m (fun k => kron s Ms (f k) ix).
Proof.
  intros HL Hi. induction m as [|m IH]; simpl; [apply kron_zero; auto|]. rewrite kron_plus by auto. rewrite IH. reflexivity.
Qed.

(** [M] is a left inverse of [N] (size [n]). *)
Definition linv (n : nat) (M N : Z -> Z -> T) : Prop :=
  forall i l, 0 <= i < Z.of_nat n -> 0 <= l < Z.of_nat n -> gsum n (fun j => M i j [*] N j l) = if i =? l then r1 else r0.
Fixpoint linvs (s : list nat) (Ms Ns : list (Z -> Z -> T)) : Prop :=
  match s, Ms, Ns with
  | [], [], [] => True
  | n :: s', M :: Ms', N :: Ns' => linv n M N /\ linvs s' Ms' Ns'
  | _, _, _ => False
  end.
Lemma linvs_length s Ms Ns : linvs s Ms Ns -> length Ms = length s /\ length Ns = length s.
Proof.
  revert Ms Ns. induction s as [|n s IH]; intros [|M Ms] [|N Ns] H; simpl in *; try tauto. destruct (IH _ _ (proj2 H)). lia.
Qed.
Lemma kron_inv s Ms Ns u ix : linvs s Ms Ns -> inb s ix -> kron s Ms (kron s Ns u) ix = u ix.
Proof.
  revert Ms Ns u ix. induction s as [|n s IH]; intros [|M Ms] [|N Ns] u [|i ix] H Hi; simpl in *; try tauto.
  destruct H as (HMN & H). destruct Hi as (Hi & Hix). destruct (linvs_length _ _ _ H) as (L1 & L2).
  pose proof (inb_length _ _ Hix) as L3.
  rewrite (@gsum_ext n _ (fun j => gsum n (fun l => (M i j [*] N j l) [*] u (l :: ix)))).
  - rewrite gsum_swap. rewrite (@gsum_ext n _ (fun l => (if i =? l then r1 else r0) [*] u (l :: ix))); [apply gsum_delta; auto|].
    intros l Hl. rewrite gsum_scal_r. rewrite HMN by auto. reflexivity.
  - intros j Hj. rewrite kron_gsum by auto. rewrite <- gsum_scal. apply gsum_ext. intros l Hl.
    rewrite kron_scal by auto. rewrite IH by auto. ring.
Qed.

(** [V]'s columns are eigenvectors of [A] with eigenvalues [L]. *)
Definition eigen (n : nat) (A V : Z -> Z -> T) (L : Z -> T) : Prop :=
  forall i k, 0 <= i < Z.of_nat n -> 0 <= k < Z.of_nat n -> gsum n (fun j => A i j [*] V j k) = V i k [*] L k.
Fixpoint eigens (s : list nat) (As Vs : list (Z -> Z -> T)) (Ls : list (Z -> T)) : Prop :=
  match s, As, Vs, Ls with
  | [], [], [], [] => True
  | n :: s', A :: As', V :: Vs', L :: Ls' => eigen n A V L /\ eigens s' As' Vs' Ls'
  | _, _, _, _ => False
  end.
Lemma eigens_length s As Vs Ls : eigens s As Vs Ls -> length As = length s /\ length Vs = length s /\ length Ls = length s.
Proof.
  revert As Vs Ls. induction s as [|n s IH]; intros [|A As] [|V Vs] [|L Ls] H; simpl in *; try tauto. destruct (IH _ _ _ (proj2 H)). lia.
Qed.
Lemma opsum_ext s As u w ix : (forall jx, inb s jx -> u jx = w jx) -> inb s ix -> opsum s As u ix = opsum s As w ix.
Proof.
  revert As u w ix. induction s as [|n s IH]; intros [|A As] u w [|i ix] H Hi; simpl in *; try tauto.
  f_equal.
  - apply gsum_ext. intros j Hj. rewrite H; [reflexivity|]. simpl. tauto.
  - apply IH; [|tauto]. intros jx Hjx. apply H. simpl. tauto.
Qed.
Lemma opsum_plus s As u w ix : opsum s As (fun jx => u jx [+] w jx) ix = opsum s As u ix [+] opsum s As w ix.
Proof.
  revert As u w ix. induction s as [|n s IH]; intros [|A As] u w [|i ix]; simpl in *; try ring.
  rewrite IH. rewrite (@gsum_ext n _ (fun j => A i j [*] u (j :: ix) [+] A i j [*] w (j :: ix))) by (intros; ring). rewrite gsum_plus. ring.
Qed.
Lemma opsum_scal s As c u ix : opsum s As (fun jx => c [*] u jx) ix = c [*] opsum s As u ix.
Proof.
  revert As u ix. induction s as [|n s IH]; intros [|A As] u [|i ix]; simpl in *; try ring.
  rewrite IH. rewrite (@gsum_ext n _ (fun j => c [*] (A i j [*] u (j :: ix)))) by (intros; ring). rewrite gsum_scal. ring.
Qed.
Lemma opsum_zero s As ix : opsum s As (fun _ => r0) ix = r0.
Proof.
  revert As ix. induction s as [|n s IH]; intros [|A As] [|i ix]; simpl in *; try ring.
  rewrite IH. rewrite (@gsum_ext n _ (fun j => r0)) by (intros; ring). rewrite gsum_zero. ring.
Qed.
Lemma opsum_gsum s As m (f : Z -> list Z -> T) ix : opsum s As (fun jx => gsum m (fun k => f k jx)) ix = gsum m (fun k => opsum s As (f k) ix).
Proof. induction m as [|m IH]; simpl; [apply opsum_zero|]. rewrite opsum_plus. rewrite IH. reflexivity. Qed.

Lemma opsum_kron s As Vs Ls w ix : eigens s As Vs Ls -> inb s ix ->
  opsum s As (kron s Vs w) ix = kron s Vs (fun kx => lamsum Ls kx [*] w kx) ix.
Proof.
  revert As Vs Ls w ix. induction s as [|n s IH]; intros [|A As] [|V Vs] [|L Ls] w [|i ix] H Hi; simpl in *; try tauto; try ring.
  destruct H as (HE & H). destruct Hi as (Hi & Hix). destruct (eigens_length _ _ _ _ H) as (L1 & L2 & L3). pose proof (inb_length _ _ Hix) as L4.
  rewrite opsum_gsum.
  rewrite (@gsum_ext n (fun j => A i j [*] _) (fun j => gsum n (fun k => (A i j [*] V j k) [*] kron s Vs (fun kx => w (k :: kx)) ix))).
  2:{ intros j Hj. rewrite <- gsum_scal. apply gsum_ext. intros; ring. }
  rewrite gsum_swap. rewrite <- gsum_plus. apply gsum_ext. intros k Hk.
  rewrite gsum_scal_r, HE by auto. rewrite opsum_scal. rewrite (IH As Vs Ls) by auto.
  transitivity (V i k [*] (kron s Vs (fun jx => L k [*] w (k :: jx)) ix [+] kron s Vs (fun kx => lamsum Ls kx [*] w (k :: kx)) ix)).
  { rewrite (@kron_scal s Vs (L k)) by auto. ring. }
  rewrite <- kron_plus by auto. f_equal. apply kron_ext; auto. intros jx _. ring.
Qed.

(** ** Functions of the summed operator. *)
Section Calculus.
Variables (s : list nat) (As Vs Ws : list (Z -> Z -> T)) (Ls : list (Z -> T)).
Hypothesis (HE : eigens s As Vs Ls) (HVW : linvs s Vs Ws) (HWV : linvs s Ws Vs).
Definition fop (f : T -> T) (u : list Z -> T) : list Z -> T :=
  kron s Vs (fun kx => kron s Ws u kx [*] f (lamsum Ls kx)).
Let LV : length Vs = length s. Proof. apply (linvs_length _ _ _ HVW). Qed.
Let LW : length Ws = length s. Proof. apply (linvs_length _ _ _ HVW). Qed.
Lemma fop_ext f u w ix : (forall jx, inb s jx -> u jx = w jx) -> inb s ix -> fop f u ix = fop f w ix.
Proof. intros H Hi. unfold fop. apply kron_ext; auto. intros kx Hk. rewrite (@kron_ext s Ws u w kx) by auto. reflexivity. Qed.
Lemma fop_fun f g u ix : (forall kx, inb s kx -> f (lamsum Ls kx) = g (lamsum Ls kx)) -> inb s ix -> fop f u ix = fop g u ix.
Proof. intros H Hi. unfold fop. apply kron_ext; auto. intros kx Hk. rewrite H by auto. reflexivity. Qed.
Lemma fop_comp f g u ix : inb s ix -> fop f (fop g u) ix = fop (fun x => f x [*] g x) u ix.
Proof.
  intros Hi. unfold fop. apply kron_ext; auto. intros kx Hk. rewrite (@kron_inv s Ws Vs) by auto. ring.
Qed.
Lemma fop_one u ix : inb s ix -> fop (fun _ => r1) u ix = u ix.
Proof.
  intros Hi. unfold fop. rewrite (@kron_ext s Vs _ (kron s Ws u)); auto; [apply kron_inv; auto|]. intros kx Hk. ring.
Qed.
Lemma fop_plus f g u ix : inb s ix -> fop (fun x => f x [+] g x) u ix = fop f u ix [+] fop g u ix.
Proof.
  intros Hi. pose proof (inb_length _ _ Hi). unfold fop. rewrite <- kron_plus by auto. apply kron_ext; auto. intros; ring.
Qed.
Lemma fop_scal c f u ix : inb s ix -> fop (fun x => c [*] f x) u ix = c [*] fop f u ix.
Proof.
  intros Hi. pose proof (inb_length _ _ Hi). unfold fop. rewrite <- kron_scal by auto. apply kron_ext; auto. intros; ring.
Qed.
Lemma fop_add f u w ix : inb s ix -> fop f (fun jx => u jx [+] w jx) ix = fop f u ix [+] fop f w ix.
Proof.
  intros Hi. pose proof (inb_length _ _ Hi). unfold fop. rewrite <- kron_plus by auto. apply kron_ext; auto. intros kx Hk. pose proof (inb_length _ _ Hk). rewrite kron_plus by auto. ring.
Qed.
Lemma fop_mul c f u ix : inb s ix -> fop f (fun jx => c [*] u jx) ix = c [*] fop f u ix.
Proof.
  intros Hi. pose proof (inb_length _ _ Hi). unfold fop. rewrite <- kron_scal by auto. apply kron_ext; auto. intros kx Hk. pose proof (inb_length _ _ Hk). rewrite kron_scal by auto. ring.
Qed.
Lemma opsum_fop f u ix : inb s ix -> opsum s As (fop f u) ix = fop (fun x => x [*] f x) u ix.
Proof.
  intros Hi. unfold fop. rewrite (@opsum_kron s As Vs Ls) by auto. apply kron_ext; auto. intros; ring.
Qed.
Lemma opsum_is_fop u ix : inb s ix -> opsum s As u ix = fop (fun x => x) u ix.
Proof.
  intros Hi. rewrite (@opsum_ext s As u (fop (fun _ => r1) u)); auto.
  - rewrite opsum_fop by auto. apply fop_fun; auto. intros; ring.
  - intros jx Hj. rewrite fop_one by auto. reflexivity.
Qed.
End Calculus.
End Gen.
