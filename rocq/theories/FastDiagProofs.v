(** * Functions of separable operators by fast diagonalisation: matmul implementation *)
From Verif Require Import Prelude NdArr Grids_model Spec SpecLin LinAlg Cplx FastDiag_model FDProofs.
Set Implicit Arguments.
Local Open Scope Z_scope.

Notation Rkron := (kron 0%R Rplus Rmult).
Notation Ropsum := (opsum 0%R Rplus Rmult).
Notation Rlamsum := (lamsum 0%R Rplus).
Notation Rfop := (fop 0%R Rplus Rmult).
Notation Rlinvs := (linvs 0%R 1%R Rplus Rmult).
Notation Reigens := (eigens 0%R Rplus Rmult).
Definition mfun (M : arr R) (i j : Z) : R := get M [i; j].
Definition vfun (L : arr R) (i : Z) : R := get L [i].
Lemma rsum_gsum n f : rsum n f = gsum 0%R Rplus n f.
Proof. reflexivity. Qed.

Definition mk (k : nat) (V : arr R) (i j : Z) : R := get V (if (k =? 0)%nat then [j; i] else [i; j]).

Lemma tdot_chain k Vs : forall s1 s2 out, Forall2 (fun V n => shp V = [n; n]) Vs s1 -> shp out = s1 ++ s2 ->
  exists r, foldM (tensordot k) out Vs = Ok r /\ shp r = s2 ++ s1 /\
    forall q c, length q = length s2 -> length c = length s1 ->
      get r (q ++ c) = Rkron s1 (map (mk k) Vs) (fun jx => get out (jx ++ q)) c.
Proof.
  induction Vs as [|V Vs IH]; intros s1 s2 out H Hs; inversion H as [|? n ? s1' HV HVs]; subst.
  - exists out. split; [reflexivity|]. simpl in *. rewrite app_nil_r. split; [exact Hs|]. intros q [|? ?] Hq Hc; simpl in *; [|lia]. rewrite app_nil_r. reflexivity.
  - cbn [foldM]. unfold tensordot at 1. rewrite Hs, HV. cbn [app].
    replace (if (k =? 0)%nat then n else n) with n by (destruct (k =? 0)%nat; reflexivity).
    rewrite Nat.eqb_refl. cbn [bind].
    set (out1 := mkarr _ _). destruct (IH s1' (s2 ++ [n]) out1 HVs) as (r & Er & Sr & Vr).
    { unfold out1. cbn [shp]. rewrite app_assoc. reflexivity. }
    exists r. split; [exact Er|]. split; [rewrite Sr, <- app_assoc; reflexivity|].
    intros q [|c0 c] Hq Hc; simpl in Hc; [lia|]. replace (q ++ c0 :: c) with ((q ++ [c0]) ++ c) by (rewrite <- app_assoc; reflexivity).
    rewrite Vr; [|rewrite !app_length, Hq; reflexivity | lia].
    cbn [map kron].
    assert (HLm : length (map (mk k) Vs) = length s1') by (rewrite map_length; apply Forall2_length' in HVs; exact HVs).
    transitivity (Rkron s1' (map (mk k) Vs) (fun jx => gsum 0%R Rplus n (fun i => mk k V c0 i * get out ((i :: jx) ++ q)))%R c).
    + f_equal. apply functional_extensionality. intros jx. unfold out1. cbn [get]. rewrite app_assoc. rewrite removelast_last, last_last.
      rewrite rsum_gsum. f_equal. apply functional_extensionality. intros i. unfold mk. rewrite Rmult_comm. reflexivity.
    + rewrite (kron_gsum RTheory s1' (map (mk k) Vs) n (fun i jx => mk k V c0 i * get out ((i :: jx) ++ q))%R) by lia.
      apply gsum_ext. intros i _. rewrite (kron_scal RTheory) by lia. reflexivity.
Qed.

(** Outer sums of eigenvalues. *)
Lemma outer_fold {T} (add : T -> T -> T) (l : list (arr T)) : forall (x : arr T) (ns : list nat),
  Forall2 (fun e n => shp e = [n]) l ns ->
  shp (fold_left (add_outer add) l x) = shp x ++ ns /\
  forall ix kx, length ix = length (shp x) -> length kx = length ns ->
    get (fold_left (add_outer add) l x) (ix ++ kx) = fold_left add (map (fun p => get (fst p) [snd p]) (combine l kx)) (get x ix).
Proof.
  induction l as [|e l IH]; intros x ns H; inversion H as [|? n ? ns' He Hl]; subst; cbn [fold_left].
  - rewrite app_nil_r. split; [reflexivity|]. intros ix [|? ?] _ Hk; simpl in Hk; [|lia]. rewrite app_nil_r. reflexivity.
  - destruct (IH (add_outer add x e) ns' Hl) as (S1 & V1). cbn [add_outer shp] in S1. split.
    + rewrite S1, He, <- app_assoc. reflexivity.
    + intros ix [|k kx] Hi Hk; simpl in Hk; [lia|]. replace (ix ++ k :: kx) with ((ix ++ [k]) ++ kx) by (rewrite <- app_assoc; reflexivity).
      rewrite V1; [|cbn [add_outer shp]; rewrite He, !app_length, Hi; reflexivity | lia].
      cbn [combine map fold_left fst snd]. f_equal. cbn [add_outer get]. rewrite <- Hi.
      rewrite firstn_app, firstn_all, Nat.sub_diag, skipn_app, skipn_all, Nat.sub_diag. cbn [firstn skipn app]. rewrite app_nil_r. reflexivity.
Qed.
Section OuterSum.
Variables (T : Type) (r0 r1 : T) (radd rmul rsub : T -> T -> T) (ropp : T -> T).
Hypothesis RT : ring_theory r0 r1 radd rmul rsub ropp eq.
Add Ring TR2 : RT.
Lemma fold_lam (l : list (arr T)) : forall kx x, length kx = length l ->
  fold_left radd (map (fun p => get (fst p) [snd p]) (combine l kx)) x = radd x (lamsum r0 radd (map (fun e k => get e [k]) l) kx).
Proof.
  induction l as [|e l IH]; intros [|k kx] x H; simpl in H; try lia; cbn [combine map fold_left lamsum fst snd]; [ring|].
  rewrite IH by lia. ring.
Qed.
Lemma outer_sum_spec (l : list (arr T)) (ns : list nat) : l <> [] -> Forall2 (fun e n => shp e = [n]) l ns ->
  exists r, outer_sum radd l = Ok r /\ shp r = ns /\
    forall kx, length kx = length ns -> get r kx = lamsum r0 radd (map (fun e k => get e [k]) l) kx.
Proof.
  intros Hne H. destruct l as [|e l]; [congruence|]. inversion H as [|? n ? ns' He Hl]; subst. cbn [outer_sum].
  destruct (@outer_fold T radd l e ns' Hl) as (S1 & V1). eexists; split; [reflexivity|]. rewrite S1, He. split; [reflexivity|].
  intros [|k kx] Hk; simpl in Hk; [lia|]. change (k :: kx) with ([k] ++ kx).
  rewrite V1; [|rewrite He; reflexivity | lia]. rewrite fold_lam by (apply Forall2_length' in Hl; lia). reflexivity.
Qed.
End OuterSum.

(** ** The matmul transform *)
Notation eigh_ok := eigen_decomposition.
(** The sum over the axes of the matrices applied along each axis. *)
Definition sep_op (ops : list (arr R)) (u : list Z -> R) (ix : list Z) : R :=
  Ropsum (map mrows ops) (map mfun ops) u ix.

Section Mat.
Variables (eigh : arr R -> arr R * arr R) (ops : list (arr R)).
Hypothesis (Hne : ops <> []) (Hok : Forall (fun A => eigh_ok A (eigh A)) ops).
Let s := map mrows ops.
Let Vs := map (fun A => mfun (snd (eigh A))) ops.
Let Ws := map (fun A => fun i j => mfun (snd (eigh A)) j i) ops.
Let Ls := map (fun A => vfun (fst (eigh A))) ops.
Definition fdop (f : R -> R) : (list Z -> R) -> list Z -> R := Rfop s Vs Ws Ls f.
Definition joint_eig (kx : list Z) : R := Rlamsum Ls kx.

Lemma mat_eigens : Reigens s (map mfun ops) Vs Ls.
Proof.
  unfold s, Vs, Ls. clear Hne. induction Hok as [|A l HA HF IH]; [exact I|]. cbn [map]. split; [|apply IH; auto].
  destruct HA as (n & SA & SL & SV & H1 & _). unfold mrows. rewrite SA. cbn [nth]. intros i k Hi Hk. apply (H1 i k Hi Hk).
Qed.
Lemma mat_VW : Rlinvs s Vs Ws.
Proof.
  unfold s, Vs, Ws. clear Hne. induction Hok as [|A l HA HF IH]; [exact I|]. cbn [map]. split; [|apply IH; auto].
  destruct HA as (n & SA & SL & SV & _ & _ & H1). unfold mrows. rewrite SA. cbn [nth]. intros i k Hi Hk. apply (H1 i k Hi Hk).
Qed.
Lemma mat_WV : Rlinvs s Ws Vs.
Proof.
  unfold s, Vs, Ws. clear Hne. induction Hok as [|A l HA HF IH]; [exact I|]. cbn [map]. split; [|apply IH; auto].
  destruct HA as (n & SA & SL & SV & _ & H1 & _). unfold mrows. rewrite SA. cbn [nth]. intros i k Hi Hk. apply (H1 i k Hi Hk).
Qed.
Lemma mat_square : forallb square ops = true.
Proof.
  apply forallb_forall. intros A HA. rewrite Forall_forall in Hok. destruct (Hok A HA) as (n & SA & _). unfold square. rewrite SA. apply Nat.eqb_refl.
Qed.
Lemma matmul_prep (func : ufun) : exists F, hermitian_matmul_transform eigh func ops = Ok F /\
  (forall rhs, shp rhs <> s -> F rhs = Err EValue) /\
  forall rhs, shp rhs = s -> exists r, F rhs = Ok r /\ shp r = s /\ forall ix, inb s ix -> get r ix = fdop (onR func) (get rhs) ix.
Proof.
  unfold hermitian_matmul_transform.
  assert (HV : Forall2 (fun V n => shp V = [n; n]) (map snd (map eigh ops)) s).
  { unfold s. clear Hne. induction Hok as [|A l HA HF IH]; [constructor|]. cbn [map]. constructor; [|apply IH; auto].
    destruct HA as (n & SA & SL & SV & _). unfold mrows. rewrite SA, SV. reflexivity. }
  assert (HL : Forall2 (fun L n => shp L = [n]) (map fst (map eigh ops)) s).
  { unfold s. clear Hne HV. induction Hok as [|A l HA HF IH]; [constructor|]. cbn [map]. constructor; [|apply IH; auto].
    destruct HA as (n & SA & SL & SV & _). unfold mrows. rewrite SA, SL. reflexivity. }
  destruct (@outer_sum_spec R 0%R 1%R Rplus Rmult Rminus Ropp RTheory (map fst (map eigh ops)) s) as (sm & Esm & Ssm & Vsm); [intros E0; apply map_eq_nil in E0; apply map_eq_nil in E0; contradiction | exact HL |].
  destruct (map eigh ops) as [|e0 es0] eqn:Eops; [apply map_eq_nil in Eops; contradiction|]. rewrite <- Eops in *. rewrite Esm. cbn [bind].
  eexists. split; [reflexivity|]. split.
  - intros rhs Hr. rewrite Ssm. unfold shape_eqb. destruct (list_eq_dec Nat.eq_dec (shp rhs) s); [contradiction | reflexivity].
  - intros rhs Hr. rewrite Ssm. unfold shape_eqb. destruct (list_eq_dec Nat.eq_dec (shp rhs) s); [cbn [negb] | contradiction].
    destruct (@tdot_chain 0 _ s [] rhs HV) as (o1 & E1 & S1 & V1); [rewrite app_nil_r; exact Hr|]. rewrite E1. cbn [bind].
    unfold raw2. cbn [app] in S1. rewrite S1. change (shp (amap (onR func) sm)) with (shp sm). rewrite Ssm. unfold shape_eqb.
    destruct (list_eq_dec Nat.eq_dec s s); [cbn [bind] | contradiction].
    destruct (@tdot_chain 1 _ s [] (amap2 Rmult o1 (amap (onR func) sm)) HV) as (o2 & E2 & S2 & V2); [rewrite app_nil_r; cbn; exact S1|]. rewrite E2.
    exists o2. split; [reflexivity|]. split; [exact S2|]. intros ix Hix. pose proof (inb_length _ _ Hix) as HLx.
    etransitivity; [exact (V2 [] ix eq_refl HLx)|]. unfold fdop, fop.
    replace (map (mk 1) (map snd (map eigh ops))) with Vs by (unfold Vs; rewrite !map_map; reflexivity).
    apply kron_ext; auto.
    { unfold Vs, s. rewrite !map_length. reflexivity. }
    intros kx Hkx. pose proof (inb_length _ _ Hkx) as HLk. rewrite app_nil_r. cbn [amap2 amap get].
    rewrite Vsm by exact HLk.
    f_equal.
    + etransitivity; [exact (V1 [] kx eq_refl HLk)|].
      replace (map (mk 0) (map snd (map eigh ops))) with Ws by (unfold Ws; rewrite !map_map; reflexivity).
      apply kron_ext; auto; [unfold Ws, s; rewrite !map_length; reflexivity|]. intros jx _. rewrite app_nil_r. reflexivity.
    + unfold Ls. rewrite !map_map. reflexivity.
Qed.
Lemma fdop_ext f u w ix : (forall jx, inb s jx -> u jx = w jx) -> inb s ix -> fdop f u ix = fdop f w ix.
Proof. apply fop_ext with (r1 := 1%R); apply mat_VW. Qed.
Lemma fdop_fun f g u ix : (forall kx, inb s kx -> f (joint_eig kx) = g (joint_eig kx)) -> inb s ix -> fdop f u ix = fdop g u ix.
Proof. apply fop_fun with (r1 := 1%R); apply mat_VW. Qed.
Lemma fdop_comp f g u ix : inb s ix -> fdop f (fdop g u) ix = fdop (fun x => f x * g x)%R u ix.
Proof. apply (fop_comp RTheory); [apply mat_VW | apply mat_WV]. Qed.
Lemma fdop_one u ix : inb s ix -> fdop (fun _ => 1%R) u ix = u ix.
Proof. apply (fop_one RTheory); apply mat_VW. Qed.
Lemma fdop_plus f g u ix : inb s ix -> fdop (fun x => f x + g x)%R u ix = (fdop f u ix + fdop g u ix)%R.
Proof. apply (fop_plus RTheory); apply mat_VW. Qed.
Lemma fdop_scal c f u ix : inb s ix -> fdop (fun x => c * f x)%R u ix = (c * fdop f u ix)%R.
Proof. apply (fop_scal RTheory); apply mat_VW. Qed.
Lemma fdop_add f u w ix : inb s ix -> fdop f (fun jx => u jx + w jx)%R ix = (fdop f u ix + fdop f w ix)%R.
Proof. apply (fop_add RTheory); apply mat_VW. Qed.
Lemma fdop_mul c f u ix : inb s ix -> fdop f (fun jx => c * u jx)%R ix = (c * fdop f u ix)%R.
Proof. apply (fop_mul RTheory); apply mat_VW. Qed.
Lemma sep_fdop f u ix : inb s ix -> sep_op ops (fdop f u) ix = fdop (fun x => x * f x)%R u ix.
Proof. apply (opsum_fop RTheory); [apply mat_eigens | apply mat_VW]. Qed.
Lemma sep_is_fdop u ix : inb s ix -> sep_op ops u ix = fdop (fun x => x) u ix.
Proof. apply (opsum_is_fop RTheory); [apply mat_eigens | apply mat_VW]. Qed.
Lemma sep_ext u w ix : (forall jx, inb s jx -> u jx = w jx) -> inb s ix -> sep_op ops u ix = sep_op ops w ix.
Proof. intros H Hi. unfold sep_op. apply opsum_ext; auto. Qed.
End Mat.

(** ** Links with the specification vocabulary *)
Lemma nsum_first d f : nsum (S d) f = (f 0%nat + nsum d (fun a => f (S a)))%R.
Proof. unfold nsum. cbn [seq map lsum fold_right]. rewrite <- seq_shift, map_map. reflexivity. Qed.
Lemma separable_sep ops : forall u ix, length ix = length ops -> separable ops u ix = sep_op ops u ix.
Proof.
  unfold separable, sep_op. induction ops as [|A ops IH]; intros u [|i ix] H; simpl in H; try lia; [reflexivity|].
  cbn [length]. rewrite nsum_first. cbn [map opsum nth]. f_equal.
  rewrite <- IH by lia. apply nsum_ext. intros a Ha. unfold matrix_along. cbn [nth upd]. reflexivity.
Qed.
Lemma joint_value_lam eigh ops kx : joint_value (map eigh ops) kx = joint_eig eigh ops kx.
Proof. revert kx. unfold joint_eig. induction ops as [|A ops IH]; intros [|k kx]; cbn [map joint_value lamsum]; try reflexivity. rewrite IH. reflexivity. Qed.
Lemma asum_rsum s : forall n (f : Z -> list Z -> R), asum s (fun ix => rsum n (fun j => f j ix)) = rsum n (fun j => asum s (f j)).
Proof.
  induction s as [|m s IH]; intros n f; cbn [asum]; [reflexivity|].
  rewrite rsum_swap. apply rsum_ext. intros i _. apply IH.
Qed.
(** Sum over a shape as iterated rsum: adjointness of kron. *)
Lemma asum_kron_T s : forall Ms u w, length Ms = length s ->
  asum s (fun ix => Rkron s Ms u ix * w ix)%R = asum s (fun jx => u jx * Rkron s (map (fun M i j => M j i) Ms) w jx)%R.
Proof.
  induction s as [|n s IH]; intros [|M Ms] u w HL; simpl in HL; try lia; cbn [asum kron map]; [reflexivity|].
  transitivity (rsum n (fun i => rsum n (fun j => M i j * asum s (fun jx => u (j :: jx) * Rkron s (map (fun M i j => M j i) Ms) (fun kx => w (i :: kx)) jx)))%R).
  - apply rsum_ext. intros i _.
    transitivity (asum s (fun ix => rsum n (fun j => M i j * (Rkron s Ms (fun jx => u (j :: jx)) ix * w (i :: ix))))%R).
    { apply asum_ext. intros ix _. change (gsum 0%R Rplus) with rsum. rewrite <- rsum_scal_r. apply rsum_ext. intros; ring. }
    rewrite (@asum_rsum s n (fun j ix => M i j * (Rkron s Ms (fun jx => u (j :: jx)) ix * w (i :: ix)))%R). apply rsum_ext. intros j _.
    rewrite asum_scal. rewrite IH by lia. reflexivity.
  - rewrite rsum_swap. apply rsum_ext. intros j _.
    transitivity (asum s (fun jx => rsum n (fun i => M i j * (u (j :: jx) * Rkron s (map (fun M i j => M j i) Ms) (fun kx => w (i :: kx)) jx)))%R).
    { rewrite (@asum_rsum s n (fun i jx => M i j * (u (j :: jx) * Rkron s (map (fun M i j => M j i) Ms) (fun kx => w (i :: kx)) jx))%R). apply rsum_ext. intros i _. rewrite asum_scal. reflexivity. }
    apply asum_ext. intros jx _. change (gsum 0%R Rplus) with rsum. rewrite <- rsum_scal. apply rsum_ext. intros; ring.
Qed.
