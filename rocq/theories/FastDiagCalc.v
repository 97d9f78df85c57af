(** * Functional calculus of separable operators: one interface for the three implementations (lemmas) *)
From Verif Require Import Prelude NdArr Grids_model Spec SpecLin LinAlg Cplx FastDiag_model FDProofs FastDiagProofs FastDiagProps FourierProofs.
Set Implicit Arguments.
Local Open Scope Z_scope.
Add Ring Cring3 : C_ring.

Record fcalc (ops : list (arr R)) (sp : R -> Prop) (FF : (R -> R) -> (list Z -> R) -> list Z -> R) : Prop := {
  fc_fin : exists l, forall x, sp x -> In x l;
  fc_eig : forall x, sp x -> eigenvalue_of ops x;
  fc_ext : forall f u w ix, (forall jx, inb (sizes ops) jx -> u jx = w jx) -> inb (sizes ops) ix -> FF f u ix = FF f w ix;
  fc_fun : forall f g u ix, (forall x, sp x -> f x = g x) -> inb (sizes ops) ix -> FF f u ix = FF g u ix;
  fc_plus : forall f g u ix, inb (sizes ops) ix -> FF (fun x => f x + g x)%R u ix = (FF f u ix + FF g u ix)%R;
  fc_scal : forall c f u ix, inb (sizes ops) ix -> FF (fun x => c * f x)%R u ix = (c * FF f u ix)%R;
  fc_one : forall u ix, inb (sizes ops) ix -> FF (fun _ => 1%R) u ix = u ix;
  fc_sep : forall f u ix, inb (sizes ops) ix -> separable ops (FF f u) ix = FF (fun x => x * f x)%R u ix
}.

Lemma separable_ext ops u w ix : (forall jx, inb (sizes ops) jx -> u jx = w jx) -> inb (sizes ops) ix -> separable ops u ix = separable ops w ix.
Proof.
  intros H Hi. pose proof (inb_length _ _ Hi) as HL. unfold sizes in HL. rewrite map_length in HL.
  rewrite !separable_sep by exact HL. apply sep_ext; auto.
Qed.

(** ** Uniqueness of the calculus (polynomial interpolation). *)
Inductive ppoly : (R -> R) -> Prop :=
| pp_one : ppoly (fun _ => 1%R)
| pp_x f : ppoly f -> ppoly (fun x => x * f x)%R
| pp_scal c f : ppoly f -> ppoly (fun x => c * f x)%R
| pp_plus f g : ppoly f -> ppoly g -> ppoly (fun x => f x + g x)%R.
Fixpoint vanish (l : list R) : R -> R :=
  match l with [] => (fun _ => 1%R) | a :: l' => (fun x => x * vanish l' x + (- a) * vanish l' x)%R end.
Lemma vanish_poly l : ppoly (vanish l).
Proof.
  induction l as [|a l IH]; cbn [vanish]; [apply pp_one|].
  apply (@pp_plus (fun x => x * vanish l x)%R (fun x => - a * vanish l x)%R); constructor; exact IH.
Qed.
Lemma vanish_zero l x : vanish l x = 0%R <-> In x l.
Proof.
  induction l as [|a l IH]; cbn [vanish In].
  - split; [lra | tauto].
  - split.
    + intros H. replace (x * vanish l x + - a * vanish l x)%R with ((x - a) * vanish l x)%R in H by ring.
      apply Rmult_integral in H. destruct H as [H|H]; [left; lra | right; apply IH; exact H].
    + intros [<- | H]; [ring|]. rewrite (proj2 IH H). ring.
Qed.
Lemma interpolate (f : R -> R) l : exists p, ppoly p /\ forall x, In x l -> p x = f x.
Proof.
  induction l as [|a l IHl].
  { exists (fun _ => 1%R). split; [apply pp_one|]. intros x H. destruct H. }
  destruct IHl as (p & Hp & IH).
  destruct (Req_EM_T (vanish l a) 0) as [E|E].
  - exists p. split; [exact Hp|]. intros x [<- | Hx]; apply IH; [apply vanish_zero; exact E | exact Hx].
  - exists (fun x => p x + ((f a - p a) / vanish l a) * vanish l x)%R. split.
    + apply (@pp_plus p (fun x => ((f a - p a) / vanish l a) * vanish l x)%R); [exact Hp|]. constructor. apply vanish_poly.
    + intros x [<- | Hx]; [field; exact E|]. rewrite (proj2 (vanish_zero l x) Hx), IH by exact Hx. ring.
Qed.
Lemma fcalc_poly ops sp1 sp2 F1 F2 p u : fcalc ops sp1 F1 -> fcalc ops sp2 F2 -> ppoly p -> forall ix, inb (sizes ops) ix -> F1 p u ix = F2 p u ix.
Proof.
  intros C1 C2. induction 1 as [|f Hf IH|c f Hf IH|f g Hf IHf Hg IHg]; intros ix Hi.
  - rewrite (fc_one C1), (fc_one C2) by exact Hi. reflexivity.
  - rewrite <- (fc_sep C1), <- (fc_sep C2) by exact Hi. apply separable_ext; auto.
  - rewrite (fc_scal C1), (fc_scal C2) by exact Hi. rewrite IH by exact Hi. reflexivity.
  - rewrite (fc_plus C1), (fc_plus C2) by exact Hi. rewrite IHf, IHg by exact Hi. reflexivity.
Qed.
Lemma fcalc_unique ops sp1 sp2 F1 F2 f u ix : fcalc ops sp1 F1 -> fcalc ops sp2 F2 -> inb (sizes ops) ix -> F1 f u ix = F2 f u ix.
Proof.
  intros C1 C2 Hi. destruct (fc_fin C1) as (l1 & H1). destruct (fc_fin C2) as (l2 & H2).
  destruct (interpolate f (l1 ++ l2)) as (p & Hp & Ep).
  rewrite (@fc_fun _ _ _ C1 f p u ix) by first [exact Hi | intros x Hx; rewrite Ep; [reflexivity | apply in_or_app; auto]].
  rewrite (@fc_fun _ _ _ C2 f p u ix) by first [exact Hi | intros x Hx; rewrite Ep; [reflexivity | apply in_or_app; auto]].
  apply (@fcalc_poly ops sp1 sp2 F1 F2 p u); auto.
Qed.

(** ** Finite image of an index range. *)
Lemma finite_image {T} s : forall g : list Z -> T, exists l, forall kx, inb s kx -> In (g kx) l.
Proof.
  induction s as [|n s IH]; intros g.
  - exists [g []]. intros [|k kx] H; simpl in H; [left; reflexivity | tauto].
  - assert (H : forall m, exists l, forall k kx, (0 <= k < Z.of_nat m) -> inb s kx -> In (g (k :: kx)) l).
    { induction m as [|m (l1 & H1)]; [exists []; intros; lia|].
      destruct (IH (fun kx => g (Z.of_nat m :: kx))) as (l2 & H2). exists (l1 ++ l2). intros k kx Hk Hx. apply in_or_app.
      destruct (Z.eq_dec k (Z.of_nat m)) as [->|Hne]; [right; apply H2; exact Hx | left; apply H1; [lia | exact Hx]]. }
    destruct (H n) as (l & Hl). exists l. intros [|k kx] Hk; simpl in Hk; [tauto|]. apply Hl; tauto.
Qed.

(** ** Matmul *)
Lemma rsum_nz n (f : Z -> R) : rsum n f <> 0%R -> exists i, 0 <= i < Z.of_nat n /\ f i <> 0%R.
Proof.
  intros H. induction n as [|n IH]; cbn [rsum] in H; [lra|].
  destruct (Req_EM_T (f (Z.of_nat n)) 0) as [E|E].
  - rewrite E, Rplus_0_r in H. destruct (IH H) as (i & Hi & Hf). exists i. split; [lia | exact Hf].
  - exists (Z.of_nat n). split; [lia | exact E].
Qed.
Lemma joint_vector_nz eigh ops : Forall (fun A => eigen_decomposition A (eigh A)) ops -> forall kx, inb (sizes ops) kx ->
  exists ix, inb (sizes ops) ix /\ joint_vector (map eigh ops) kx ix <> 0%R.
Proof.
  induction 1 as [|A ops HA HF IH]; intros [|k kx] Hk; simpl in Hk; try tauto.
  - exists []. split; [exact I | cbn; lra].
  - destruct (IH kx (proj2 Hk)) as (ix & Hix & Hv). destruct HA as (n & SA & SL & SV & _ & H1 & _).
    rewrite SA in Hk. cbn [nth] in Hk. specialize (H1 k k (proj1 Hk) (proj1 Hk)). rewrite Z.eqb_refl in H1.
    destruct (@rsum_nz n (fun j => get (snd (eigh A)) [j; k] * get (snd (eigh A)) [j; k])%R) as (i & Hi & Hf); [rewrite H1; lra|].
    exists (i :: ix). split; [simpl; rewrite SA; split; [exact Hi | exact Hix]|]. cbn [map joint_vector].
    apply Rmult_integral_contrapositive. split; [|exact Hv]. intros E. apply Hf. rewrite E. ring.
Qed.
Lemma matmul_fcalc eigh ops : Forall (fun A => eigen_decomposition A (eigh A)) ops ->
  fcalc ops (fun x => exists kx, inb (sizes ops) kx /\ x = joint_eig eigh ops kx) (fdop eigh ops).
Proof.
  intros Hok. constructor.
  - destruct (finite_image (sizes ops) (joint_eig eigh ops)) as (l & Hl). exists l. intros x (kx & Hk & ->). apply Hl. exact Hk.
  - intros x (kx & Hk & ->). exists (joint_vector (map eigh ops) kx). split; [apply joint_vector_nz; auto|].
    intros ix Hi. rewrite fast_diag_joint_eigenvectors_lem by auto. rewrite joint_value_lam. reflexivity.
  - intros. apply fdop_ext; auto.
  - intros f g u ix H Hi. apply (fdop_fun eigh Hok); auto. intros kx Hk. apply H. exists kx. auto.
  - intros. apply (fdop_plus eigh Hok); auto.
  - intros. apply (fdop_scal eigh Hok); auto.
  - intros. apply (fdop_one eigh Hok); auto.
  - intros f u ix Hi. pose proof (inb_length _ _ Hi) as HL. unfold sizes in HL. rewrite map_length in HL.
    rewrite separable_sep by exact HL. apply (sep_fdop eigh Hok). exact Hi.
Qed.

(** ** FFT *)
Definition clam (ops : list (arr R)) : list (Z -> cplx) := map (fun A k => fft1 (mrows A) (fun j => RtoC (get A [j; 0%Z])) k) ops.
Definition cops (ops : list (arr R)) : list (Z -> Z -> cplx) := map (fun A i j => RtoC (mfun A i j)) ops.
Definition ffop (ops : list (arr R)) (f : cplx -> cplx) (u : list Z -> R) (ix : list Z) : R :=
  re (Cfop (map mrows ops) (map idftm (map mrows ops)) (map dftm (map mrows ops)) (clam ops) f (fun jx => RtoC (u jx)) ix).

Lemma fft_prep (func : ufun) ops : ops <> [] ->
  exists F, circulant_fft_transform func ops = Ok F /\
    (forall rhs, shp rhs <> sizes ops -> F rhs = Err EValue) /\
    forall rhs, shp rhs = sizes ops -> exists r, F rhs = Ok r /\ shp r = sizes ops /\
      forall ix, inb (sizes ops) ix -> get r ix = ffop ops (onC func) (get rhs) ix.
Proof.
  intros Hne. unfold circulant_fft_transform. set (s := sizes ops).
  assert (HL : Forall2 (fun e n => shp e = [n]) (map fft_column ops) s).
  { unfold s. clear Hne. induction ops as [|A ops IH]; [constructor|]. cbn [map sizes]. constructor; [reflexivity | exact IH]. }
  destruct (@outer_sum_spec cplx C0 C1 Cadd Cmul Csub Copp C_ring (map fft_column ops) s) as (sm & Esm & Ssm & Vsm); [intros E; apply map_eq_nil in E; contradiction | exact HL|].
  rewrite Esm. cbn [bind]. eexists. split; [reflexivity|]. split.
  - intros rhs Hr. unfold shape_eqb. destruct (list_eq_dec Nat.eq_dec (shp rhs) (map mrows ops)); [contradiction | reflexivity].
  - intros rhs Hr. unfold shape_eqb. destruct (list_eq_dec Nat.eq_dec (shp rhs) (map mrows ops)); [cbn [negb] | contradiction].
    eexists. split; [reflexivity|]. destruct (fftn_kron (amap RtoC rhs)) as (S1 & V1).
    set (Y := amap2 Cmul (amap (onC func) sm) (fftn (amap RtoC rhs))).
    assert (SY : shp Y = s) by (unfold Y; cbn; exact Ssm).
    destruct (ifftn_kron Y) as (S2 & V2). rewrite SY in S2, V2. split; [exact S2|]. intros ix Hix. change (re (get (ifftn Y) ix) = ffop ops (onC func) (get rhs) ix).
    rewrite V2 by (apply inb_length; exact Hix). unfold ffop, fop. f_equal. change (map mrows ops) with s.
    apply kron_ext; auto; [rewrite map_length; reflexivity|]. intros kx Hkx. pose proof (inb_length _ _ Hkx) as HLk.
    unfold Y. cbn [amap2 amap get]. rewrite V1 by (cbn [amap shp]; rewrite Hr; exact HLk). rewrite Vsm by exact HLk.
    cbn [amap shp]. rewrite Hr. unfold clam. rewrite map_map. rewrite <- (C_ring.(Rmul_comm)). reflexivity.
Qed.

Lemma re_opsum ops : forall z ix, Ropsum (map mrows ops) (map mfun ops) (fun jx => re (z jx)) ix = re (Copsum (map mrows ops) (cops ops) z ix).
Proof.
  unfold cops. induction ops as [|A ops IH]; intros z [|i ix]; cbn [map opsum]; try reflexivity.
  rewrite (IH (fun jx => z (i :: jx)) ix). cbn [re Cadd]. f_equal.
  change (gsum C0 Cadd) with csum. rewrite re_csum. rewrite <- rsum_gsum. apply rsum_ext. intros j _. cbn. ring.
Qed.
Lemma circ_eigens ops : Forall circulant ops -> Ceigens (map mrows ops) (cops ops) (map idftm (map mrows ops)) (clam ops).
Proof.
  unfold cops, clam. induction 1 as [|A ops (n & Hn & SA & HA) HF IH]; [exact I|]. cbn [map eigens]. split; [|exact IH].
  unfold mrows. rewrite SA. cbn [nth]. apply (@circ_eigen n (fun i j => get A [i; j]) Hn HA).
Qed.
Lemma clam_real ops : Forall circulant ops -> Forall symmetric ops -> forall kx, Clamsum (clam ops) kx = RtoC (re (Clamsum (clam ops) kx)).
Proof.
  intros H1 H2 kx. apply Cconj_fix. revert kx. unfold clam. induction H1 as [|A ops (n & Hn & SA & HA) HF IH]; intros [|k kx]; cbn [map lamsum]; try (ceq).
  inversion H2 as [|? ? (m & SA' & HS) HF2]; subst. rewrite SA in SA'. injection SA' as <-.
  rewrite Cconj_add, IH by exact HF2. f_equal. unfold mrows. rewrite SA. cbn [nth]. apply (@circ_real n (fun i j => get A [i; j])); auto.
Qed.
(** Fourier modes. *)
Fixpoint fmode (s : list nat) (kx ix : list Z) : cplx :=
  match s, kx, ix with n :: s', k :: kx', i :: ix' => Cmul (idftm n i k) (fmode s' kx' ix') | _, _, _ => C1 end.
Lemma fmode_eigen ops : Forall circulant ops -> forall kx ix, inb (map mrows ops) kx -> inb (map mrows ops) ix ->
  Copsum (map mrows ops) (cops ops) (fmode (map mrows ops) kx) ix = Cmul (Clamsum (clam ops) kx) (fmode (map mrows ops) kx ix).
Proof.
  unfold cops, clam. induction 1 as [|A ops (n & Hn & SA & HA) HF IH]; intros [|k kx] [|i ix] Hk Hi; simpl in Hk, Hi; try tauto; cbn [map opsum fmode lamsum]; [ring|].
  unfold mrows in Hk, Hi at 1. rewrite SA in Hk, Hi. cbn [nth] in Hk, Hi. unfold mrows at 1 3. rewrite SA. cbn [nth].
  change (gsum C0 Cadd) with csum.
  rewrite (@csum_ext n _ (fun j => Cmul (fmode (map mrows ops) kx ix) (Cmul (RtoC (get A [i; j])) (idftm n j k)))) by (intros; unfold mfun, mrows; rewrite SA; cbn [nth]; ring).
  rewrite csum_scal. pose proof (@circ_eigen n (fun i j => get A [i; j]) Hn HA i k (proj1 Hi) (proj1 Hk)) as E. change (gsum C0 Cadd) with csum in E. rewrite E.
  replace (mrows A) with n by (unfold mrows; rewrite SA; reflexivity).
  rewrite (@opsum_scal _ _ _ _ _ _ _ C_ring). rewrite IH by tauto. ring.
Qed.
Fixpoint zeros (s : list nat) : list Z := match s with [] => [] | _ :: s' => 0 :: zeros s' end.
Lemma zeros_inb s : allpos s -> inb s (zeros s).
Proof. induction s as [|n s IH]; intros H; [exact I|]. inversion H; subst. cbn. split; [lia | apply IH; auto]. Qed.
Lemma fmode_zero s : allpos s -> forall kx, length kx = length s -> exists x, fmode s kx (zeros s) = RtoC x /\ x <> 0%R.
Proof.
  induction s as [|n s IH]; intros Hp [|k kx] HL; simpl in HL; try lia; cbn [fmode zeros]; [exists 1%R; split; [reflexivity | lra]|].
  inversion Hp; subst. destruct (IH H2 kx) as (x & -> & Hx); [lia|]. exists (/ INR n * x)%R. split.
  - unfold idftm. replace (2 * PI * IZR (0 * k) / INR n)%R with 0%R by (cbn; unfold Rdiv; ring). rewrite cis_0. ceq.
  - apply Rmult_integral_contrapositive. split; [apply Rinv_neq_0_compat; apply not_0_INR; lia | exact Hx].
Qed.
Lemma circ_pos ops : Forall circulant ops -> allpos (map mrows ops).
Proof.
  induction 1 as [|A ops (n & Hn & SA & HA) HF IH]; [constructor|]. cbn [map]. constructor; [|exact IH]. unfold mrows. rewrite SA. exact Hn.
Qed.

Definition rlift (f : R -> R) (z : cplx) : cplx := RtoC (f (re z)).
Lemma fft_fcalc ops : Forall circulant ops -> Forall symmetric ops ->
  fcalc ops (fun x => exists kx, inb (sizes ops) kx /\ x = re (Clamsum (clam ops) kx)) (fun f => ffop ops (rlift f)).
Proof.
  intros Hc Hs. pose proof (circ_eigens Hc) as HE. destruct (dfts_inv (map mrows ops)) as (HVW & HWV).
  assert (HR : forall kx, Clamsum (clam ops) kx = RtoC (re (Clamsum (clam ops) kx))) by (apply clam_real; auto).
  constructor.
  - destruct (finite_image (sizes ops) (fun kx => re (Clamsum (clam ops) kx))) as (l & Hl). exists l. intros x (kx & Hk & ->). apply (Hl kx). exact Hk.
  - intros x (kx & Hk & ->). exists (fun ix => re (fmode (map mrows ops) kx ix)). split.
    + exists (zeros (sizes ops)). pose proof (circ_pos Hc) as Hp. split; [apply zeros_inb; exact Hp|].
      destruct (@fmode_zero (map mrows ops) Hp kx) as (x & Ex & Hx); [apply inb_length; exact Hk|].
      change (zeros (sizes ops)) with (zeros (map mrows ops)). rewrite Ex. exact Hx.
    + intros ix Hi. pose proof (inb_length _ _ Hi) as HL. unfold sizes in HL. rewrite map_length in HL. rewrite separable_sep by exact HL.
      unfold sep_op. rewrite re_opsum, fmode_eigen by auto. rewrite HR. cbn. ring.
  - intros f u w ix H Hi. unfold ffop. f_equal. apply (@fop_ext _ _ C1 _ _ _ _ _ _ HVW); auto. intros jx Hj. rewrite H by exact Hj. reflexivity.
  - intros f g u ix H Hi. unfold ffop. f_equal. apply (@fop_fun _ _ C1 _ _ _ _ _ _ HVW); auto. intros kx Hk. unfold rlift. rewrite (H (re (Clamsum (clam ops) kx))); [reflexivity | exists kx; auto].
  - intros f g u ix Hi. unfold ffop.
    set (T := Cfop (map mrows ops) (map idftm (map mrows ops)) (map dftm (map mrows ops)) (clam ops)).
    change (re (T (rlift (fun x => f x + g x)%R) (fun jx => RtoC (u jx)) ix) = re (Cadd (T (rlift f) (fun jx => RtoC (u jx)) ix) (T (rlift g) (fun jx => RtoC (u jx)) ix))).
    unfold T. rewrite <- (@fop_plus _ _ _ _ _ _ _ C_ring _ _ _ (clam ops) HVW (rlift f) (rlift g) (fun jx => RtoC (u jx)) ix Hi).
    f_equal. apply (@fop_fun _ _ C1 _ _ _ _ _ _ HVW); auto. intros kx Hk. unfold rlift. ceq.
  - intros c f u ix Hi. unfold ffop.
    transitivity (re (Cmul (RtoC c) (Cfop (map mrows ops) (map idftm (map mrows ops)) (map dftm (map mrows ops)) (clam ops) (rlift f) (fun jx => RtoC (u jx)) ix))); [|cbn; ring].
    rewrite <- (@fop_scal _ _ _ _ _ _ _ C_ring _ _ _ (clam ops) HVW (RtoC c) (rlift f) (fun jx => RtoC (u jx)) ix Hi).
    f_equal. apply (@fop_fun _ _ C1 _ _ _ _ _ _ HVW); auto. intros kx Hk. unfold rlift. ceq.
  - intros u ix Hi. unfold ffop. change (rlift (fun _ => 1%R)) with (fun _ : cplx => C1).
    rewrite (@fop_one _ _ _ _ _ _ _ C_ring _ _ _ (clam ops) HVW) by exact Hi. reflexivity.
  - intros f u ix Hi. pose proof (inb_length _ _ Hi) as HL. unfold sizes in HL. rewrite map_length in HL. rewrite separable_sep by exact HL.
    unfold sep_op, ffop. rewrite re_opsum. f_equal. rewrite (@opsum_fop _ _ _ _ _ _ _ C_ring _ _ _ _ _ HE HVW) by exact Hi.
    apply (@fop_fun _ _ C1 _ _ _ _ _ _ HVW); auto. intros kx Hk. rewrite (HR kx). unfold rlift. ceq.
Qed.

(** ** Real FFT: same result as the FFT when [func] commutes with conjugation *)
Section Rfft.
Variables (func : ufun) (l : list (arr R)) (A : arr R).
Let s := map mrows l.
Let n := mrows A.
Hypothesis (Hp : allpos (s ++ [n])) (Hev : Nat.odd n = false).
Hypothesis Hconj : forall kx, onC func (Cconj (Clamsum (clam (l ++ [A])) kx)) = Cconj (onC func (Clamsum (clam (l ++ [A])) kx)).
Let Hs : allpos s. Proof. apply Forall_app in Hp. apply Hp. Qed.
Let Hn : (0 < n)%nat. Proof. apply Forall_app in Hp. destruct Hp as (_ & H). inversion H; auto. Qed.
Let Hhalf : (n = 2 * (n / 2))%nat.
Proof. assert (E : Nat.Even n) by (apply Nat.even_spec; rewrite <- Nat.negb_odd, Hev; reflexivity). destruct E as (m & ->). rewrite Nat.mul_comm, Nat.div_mul by lia. lia. Qed.
Let lam kx := Clamsum (clam (l ++ [A])) kx.

Lemma sizes_snoc : map mrows (l ++ [A]) = s ++ [n].
Proof. rewrite map_app. reflexivity. Qed.
Lemma clam_neg ops : allpos (map mrows ops) -> forall kx, length kx = length ops -> Clamsum (clam ops) (negs (map mrows ops) kx) = Cconj (Clamsum (clam ops) kx).
Proof.
  unfold clam. induction ops as [|B ops IH]; intros HB [|k kx] HL; simpl in HL; try lia; cbn [map lamsum negs]; [ceq|].
  inversion HB; subst. rewrite IH by (auto; lia). rewrite circ_conj by auto. rewrite Cconj_add. reflexivity.
Qed.
Variable rhs : arr R.
Hypothesis Hr : shp rhs = s ++ [n].
Let X kx := Ckron (s ++ [n]) (map dftm (s ++ [n])) (fun jx => RtoC (get rhs jx)) kx.
Let Yf kx := Cmul (onC func (lam kx)) (X kx).
Let Zf c k := Ckron s (map idftm s) (fun jx => Yf (jx ++ [k])) c.
Lemma X_neg kx : length kx = length (s ++ [n]) -> X (negs (s ++ [n]) kx) = Cconj (X kx).
Proof.
  intros HL. unfold X. rewrite kron_dft_neg by auto. rewrite kron_conj. f_equal. apply functional_extensionality. intros jx. rewrite Cconj_RtoC. reflexivity.
Qed.
Lemma Y_neg kx : length kx = length (s ++ [n]) -> Yf (negs (s ++ [n]) kx) = Cconj (Yf kx).
Proof.
  intros HL. unfold Yf. rewrite X_neg by exact HL. rewrite Cconj_mul. f_equal. unfold lam.
  rewrite <- sizes_snoc, clam_neg; [apply Hconj | rewrite sizes_snoc; exact Hp |].
  rewrite HL. unfold s. rewrite !app_length, map_length. reflexivity.
Qed.
Lemma Z_conj c k : length c = length s -> Cconj (Zf c k) = Zf c (nneg n k).
Proof.
  intros HL. unfold Zf. rewrite kron_conj.
  rewrite <- (@kron_idft_neg s (fun jx => Yf (jx ++ [nneg n k])) c Hs HL).
  assert (G : forall ss Ms u w cc, length Ms = length ss -> length cc = length ss -> (forall jx, length jx = length ss -> u jx = w jx) -> Ckron ss Ms u cc = Ckron ss Ms w cc).
  { induction ss as [|m ss IH]; intros [|M Ms] u w [|i cc] H1 H2 H3; simpl in H1, H2; try lia; cbn [kron]; [apply H3; reflexivity|].
    apply gsum_ext. intros j _. rewrite (IH Ms (fun jx => u (j :: jx)) (fun jx => w (j :: jx))); [reflexivity | lia | lia |]. intros jx Hj. apply H3. cbn. lia. }
  apply G; [rewrite !map_length; reflexivity | exact HL |]. intros jx Hj.
  rewrite <- Y_neg by (rewrite !app_length, Hj; reflexivity). rewrite negs_app by exact Hj. reflexivity.
Qed.
Lemma herm_Z c k : length c = length s -> 0 <= k < Z.of_nat n -> hermitian_ext n (Zf c) k = Zf c k.
Proof.
  intros HL Hk. unfold hermitian_ext. destruct (Z.eqb_spec k 0) as [->|Hk0].
  - symmetry. apply Cconj_fix. rewrite Z_conj by exact HL. f_equal.
  - destruct (Z.ltb_spec (2 * k) (Z.of_nat n)); [reflexivity|]. destruct (Z.eqb_spec (2 * k) (Z.of_nat n)) as [E|E].
    + symmetry. apply Cconj_fix. rewrite Z_conj by exact HL. f_equal. unfold nneg. symmetry. apply Z.mod_unique with (q := -1); lia.
    + rewrite Z_conj by exact HL. f_equal. unfold nneg. symmetry. apply Z.mod_unique with (q := -1); lia.
Qed.
Lemma Z_full c i : length c = length s -> Ckron (s ++ [n]) (map idftm (s ++ [n])) Yf (c ++ [i]) = ifft1 n (Zf c) i.
Proof.
  intros HL. rewrite map_app. cbn [map]. rewrite kron_snoc by (rewrite ?map_length; auto). unfold ifft1, Zf.
  unfold csum. rewrite (@kron_gsum _ _ _ _ _ _ _ C_ring s (map idftm s) n (fun k jx => Cmul (idftm n i k) (Yf (jx ++ [k])))) by (rewrite ?map_length; auto).
  apply gsum_ext. intros k _. rewrite (@kron_scal _ _ _ _ _ _ _ C_ring) by (rewrite ?map_length; auto). reflexivity.
Qed.
Lemma rfftn_spec : shp (rfftn rhs) = s ++ [(n / 2 + 1)%nat] /\ forall c k, length c = length s -> get (rfftn rhs) (c ++ [k]) = X (c ++ [k]).
Proof.
  unfold rfftn. rewrite Hr. rewrite app_length, Nat.add_1_r. cbn [Nat.sub]. rewrite Nat.sub_0_r.
  replace (nth (length s) (s ++ [n]) 0%nat) with n by (symmetry; apply nth_mid).
  set (a1 := axmap _ _ _ _).
  assert (S1 : shp a1 = s ++ [(n / 2 + 1)%nat]) by (unfold a1, axmap; cbn [shp amap]; rewrite Hr; apply upd_mid).
  destruct (@fold_axes fft1 dftm (fun _ _ _ => eq_refl) s [] [(n / 2 + 1)%nat] a1) as (S2 & V2); [exact S1|]. cbn [app length] in S2, V2.
  split; [exact S2|]. intros c k HL. specialize (V2 [] c [k] eq_refl HL). cbn [app] in V2. rewrite V2.
  unfold X. rewrite map_app. cbn [map]. rewrite kron_snoc by (rewrite ?map_length; auto).
  assert (G : forall ss Ms u w cc, length Ms = length ss -> length cc = length ss -> (forall jx, length jx = length ss -> u jx = w jx) -> Ckron ss Ms u cc = Ckron ss Ms w cc).
  { induction ss as [|m ss IH]; intros [|M Ms] u w [|i cc] H1 H2 H3; simpl in H1, H2; try lia; cbn [kron]; [apply H3; reflexivity|].
    apply gsum_ext. intros j _. rewrite (IH Ms (fun jx => u (j :: jx)) (fun jx => w (j :: jx))); [reflexivity | lia | lia |]. intros jx Hj. apply H3. cbn. lia. }
  apply G; [rewrite map_length; reflexivity | exact HL|]. intros jx Hj. unfold a1, axmap. cbn [get amap].
  rewrite <- Hj, nth_mid. unfold fft1. apply csum_ext. intros j _. rewrite upd_mid. reflexivity.
Qed.
Lemma irfftn_spec Y : shp Y = s ++ [(n / 2 + 1)%nat] -> (forall c k, length c = length s -> get Y (c ++ [k]) = Yf (c ++ [k])) ->
  shp (irfftn Y) = s ++ [n] /\ forall c i, length c = length s -> get (irfftn Y) (c ++ [i]) = re (Ckron (s ++ [n]) (map idftm (s ++ [n])) Yf (c ++ [i])).
Proof.
  intros SY VY. unfold irfftn. rewrite SY. rewrite app_length, Nat.add_1_r. cbn [Nat.sub]. rewrite Nat.sub_0_r.
  replace (nth (length s) (s ++ [(n / 2 + 1)%nat]) 0%nat) with (n / 2 + 1)%nat by (symmetry; apply nth_mid).
  replace (2 * (n / 2 + 1 - 1))%nat with n by lia.
  destruct (@fold_axes ifft1 idftm (fun _ _ _ => eq_refl) s [] [(n / 2 + 1)%nat] Y) as (S2 & V2); [exact SY|]. cbn [app length] in S2, V2.
  set (Zr := fold_left _ _ Y) in *. cbn [amap axmap shp get]. split; [rewrite S2; apply upd_mid|]. intros c i HL.
  f_equal. rewrite Z_full by exact HL. rewrite <- HL, nth_mid. unfold irfft1, ifft1. apply csum_ext. intros k Hk. f_equal.
  rewrite <- herm_Z by auto. unfold hermitian_ext.
  assert (EZ : forall k, get Zr (upd (length c) k (c ++ [i])) = Zf c k).
  { intros k'. rewrite upd_mid. specialize (V2 [] c [k'] eq_refl HL). cbn [app] in V2. rewrite V2. unfold Zf.
    assert (G : forall ss Ms u w cc, length Ms = length ss -> length cc = length ss -> (forall jx, length jx = length ss -> u jx = w jx) -> Ckron ss Ms u cc = Ckron ss Ms w cc).
    { induction ss as [|m ss IH]; intros [|M Ms] u w [|i0 cc] H1 H2 H3; simpl in H1, H2; try lia; cbn [kron]; [apply H3; reflexivity|].
      apply gsum_ext. intros j _. rewrite (IH Ms (fun jx => u (j :: jx)) (fun jx => w (j :: jx))); [reflexivity | lia | lia |]. intros jx Hj. apply H3. cbn. lia. }
    apply G; [rewrite map_length; reflexivity | exact HL|]. intros jx Hj. apply VY. exact Hj. }
  rewrite !EZ. reflexivity.
Qed.
End Rfft.

Lemma split_last {T} (s : list T) : forall ix : list T, length ix = S (length s) -> exists c i, ix = c ++ [i] /\ length c = length s.
Proof.
  intros ix H. destruct (@exists_last _ ix) as (c & i & E); [intros ->; discriminate|]. exists c, i. split; [exact E|].
  rewrite E, app_length in H. cbn in H. lia.
Qed.
Lemma rfft_prep (func : ufun) l A : allpos (sizes (l ++ [A])) -> Nat.odd (mrows A) = false ->
  (forall kx, onC func (Cconj (Clamsum (clam (l ++ [A])) kx)) = Cconj (onC func (Clamsum (clam (l ++ [A])) kx))) ->
  exists F, circulant_rfft_transform func (l ++ [A]) = Ok F /\
    forall rhs, shp rhs = sizes (l ++ [A]) -> exists r, F rhs = Ok r /\ shp r = sizes (l ++ [A]) /\
      forall ix, inb (sizes (l ++ [A])) ix -> get r ix = ffop (l ++ [A]) (onC func) (get rhs) ix.
Proof.
  intros Hp Hev Hconj. unfold circulant_rfft_transform. rewrite rev_app_distr. cbn [rev app]. rewrite Hev, rev_involutive.
  change (sizes (l ++ [A])) with (map mrows (l ++ [A])) in *. rewrite map_app in *. cbn [map] in *. set (s := map mrows l) in *. set (n := mrows A) in *.
  assert (HL : Forall2 (fun e n => shp e = [n]) (map fft_column l ++ [rfft_column A]) (s ++ [(n / 2 + 1)%nat])).
  { apply Forall2_app; [|constructor; [reflexivity | constructor]]. unfold s. clear. induction l as [|B l IH]; [constructor|]. cbn [map]. constructor; [reflexivity | exact IH]. }
  destruct (@outer_sum_spec cplx C0 C1 Cadd Cmul Csub Copp C_ring (map fft_column l ++ [rfft_column A]) _ ltac:(destruct (map fft_column l); discriminate) HL) as (sm & Esm & Ssm & Vsm).
  rewrite Esm. cbn [bind]. eexists. split; [reflexivity|]. intros rhs Hr.
  destruct (@rfftn_spec l A Hp Hev rhs Hr) as (S1 & V1). fold s in S1, V1. fold n in S1, V1. cbn [amap shp]. rewrite Ssm, S1. unfold shape_eqb.
  destruct (list_eq_dec Nat.eq_dec (s ++ [(n / 2 + 1)%nat]) (s ++ [(n / 2 + 1)%nat])); [|contradiction].
  eexists. split; [reflexivity|].
  set (Y := amap2 Cmul _ _).
  destruct (@irfftn_spec func l A Hp Hev Hconj rhs Y) as (S2 & V2).
  - unfold Y. cbn. exact Ssm.
  - intros c k Hc. unfold Y. cbn [amap2 amap get]. rewrite V1 by exact Hc. f_equal. f_equal. rewrite Vsm.
    + unfold clam. rewrite !map_app, map_map. reflexivity.
    + rewrite !app_length, Hc. reflexivity.
  - split; [exact S2|]. intros ix Hix. pose proof (inb_length _ _ Hix) as HLx. rewrite app_length, Nat.add_1_r in HLx.
    destruct (@split_last Z (zeros s) ix) as (c & i & -> & Hc). { rewrite HLx. clear. induction s; cbn; auto. }
    assert (Hcs : length c = length s). { rewrite app_length in HLx. cbn in HLx. lia. }
    rewrite V2 by exact Hcs. unfold ffop, fop. f_equal. fold s. fold n. replace (map mrows (l ++ [A])) with (s ++ [n]) by (rewrite map_app; reflexivity).
    apply kron_ext; auto; [rewrite map_length; reflexivity|]. intros kx _. apply (C_ring.(Rmul_comm)).
Qed.
