(** * Properties of finite_differences.py on periodic grids *)
From Verif Require Import Prelude NdArr Grids_model Spec Boundaries_model BoundariesPeriodic FD_model PRep FDProofs.
Set Implicit Arguments.

Definition gg (u : gvar) : grid := ggrid (garray u).

Lemma pf_pvar u : periodic_field u -> pvar (ggrid (garray u)) (goff (garray u)) (pval (garray u)) u.
Proof. intros ((Hw & Hs & Ho) & Hb). split; auto. apply prep_pval; auto. Qed.
Lemma pf_per u : periodic_field u -> periodic (gshape (ggrid (garray u))) (pval (garray u)).
Proof. intros ((Hw & Hs & Ho) & Hb). rewrite <- Hs. apply periodic_pval. Qed.

(* @prop C14 forward_difference of a periodic variable returns (u[i+1]-u[i])/h at offset +1/2. *)
Lemma forward_difference_spec_lem : forall u ax, periodic_field u -> (ax < gndim (ggrid (garray u)))%nat ->
  exists w, forward_difference u ax = Ok w /\
    is_field w (ggrid (garray u)) (offs ax (1 # 2) (goff (garray u)))
      (fun ix => (pval (garray u) (next ax ix) - pval (garray u) ix) / hstep (ggrid (garray u)) ax)%R.
Proof.
  intros u ax Hu Hax. eapply fwd_prep; eauto; try apply Hu; [apply pf_per; auto | apply pf_pvar; auto].
Qed.
(* @ex *)
Lemma forward_difference_spec_ex_lem :
  let u := mkgv (mkga (mkarr [3%nat; 2%nat] (fun ix => IZR (nth 0 ix 0 * 10 + nth 1 ix 0)%Z)) [(1 # 2)%Q; 1%Q]
                      (mkgrid [3%nat; 2%nat] [1%R; 2%R] [(0%R, 3%R); (0%R, 4%R)])) (periodic_bc 2) in
  periodic_field u /\ (1 < gndim (ggrid (garray u)))%nat.
Proof. simpl. split; [repeat split; repeat constructor; (lia || lra) | unfold gndim; simpl; lia]. Qed.

(* @prop C14 backward_difference returns (u[i]-u[i-1])/h at offset -1/2. *)
Lemma backward_difference_spec_lem : forall u ax, periodic_field u -> (ax < gndim (ggrid (garray u)))%nat ->
  exists w, backward_difference u ax = Ok w /\
    is_field w (ggrid (garray u)) (offs ax (- 1 # 2) (goff (garray u)))
      (fun ix => (pval (garray u) ix - pval (garray u) (prev ax ix)) / hstep (ggrid (garray u)) ax)%R.
Proof.
  intros u ax Hu Hax. eapply bwd_prep; eauto; try apply Hu; [apply pf_per; auto | apply pf_pvar; auto].
Qed.
(* @ex *)
Lemma backward_difference_spec_ex_lem :
  let u := mkgv (mkga (mkarr [3%nat; 2%nat] (fun ix => IZR (nth 0 ix 0 * 10 + nth 1 ix 0)%Z)) [(1 # 2)%Q; 1%Q]
                      (mkgrid [3%nat; 2%nat] [1%R; 2%R] [(0%R, 3%R); (0%R, 4%R)])) (periodic_bc 2) in
  exists w, backward_difference u 0 = Ok w /\ get (gdata w) [0%Z; 0%Z] = (- 20)%R.
Proof.
  intros u. destruct (@backward_difference_spec_lem u 0%nat) as (w & E & (A & B & C & D)).
  - repeat split; repeat constructor; (lia || lra).
  - unfold gndim; simpl; lia.
  - exists w. split; [exact E|]. rewrite D by (simpl; lia). unfold u, pval, hstep, prev, next, shiftix; cbn. lra.
Qed.

(* @prop C14 central_difference returns (u[i+1]-u[i-1])/(2h) at the offset of u. *)
Lemma central_difference_spec_lem : forall u ax, periodic_field u -> (ax < gndim (ggrid (garray u)))%nat ->
  exists w, central_difference u ax = Ok w /\
    is_field w (ggrid (garray u)) (goff (garray u))
      (fun ix => (pval (garray u) (next ax ix) - pval (garray u) (prev ax ix)) / (2 * hstep (ggrid (garray u)) ax))%R.
Proof.
  intros u ax Hu Hax. eapply ctr_prep; eauto; try apply Hu; [apply pf_per; auto | apply pf_pvar; auto].
Qed.
(* @ex *)
Lemma central_difference_spec_ex_lem :
  let u := mkgv (mkga (mkarr [4%nat] (fun ix => IZR (nth 0 ix 0 * nth 0 ix 0)%Z)) [(1 # 2)%Q]
                      (mkgrid [4%nat] [1%R] [(0%R, 4%R)])) (periodic_bc 1) in
  exists w, central_difference u 0 = Ok w /\ get (gdata w) [2%Z] = 4%R.
Proof.
  intros u. destruct (@central_difference_spec_lem u 0%nat) as (w & E & (A & B & C & D)).
  - repeat split; repeat constructor; (lia || lra).
  - unfold gndim; simpl; lia.
  - exists w. split; [exact E|]. rewrite D by (simpl; lia). unfold u, pval, hstep, prev, next, shiftix; cbn. lra.
Qed.

(** Affine function of position with one slope per axis. *)
Definition affine (g : grid) (o : list Q) (c : R) (sl : nat -> R) (ix : list Z) : R :=
  (c + nsum (gndim g) (fun a => sl a * coord g o a ix))%R.

Lemma affine_shift g o c sl ax k ix : (ax < gndim g)%nat -> length ix = gndim g ->
  affine g o c sl (shiftix ax k ix) = (affine g o c sl ix + IZR k * hstep g ax * sl ax)%R.
Proof.
  intros Hax HL. unfold affine.
  assert (E : nsum (gndim g) (fun a => sl a * coord g o a (shiftix ax k ix))%R =
     (nsum (gndim g) (fun a => sl a * coord g o a ix) + nsum (gndim g) (fun a => if (a =? ax)%nat then IZR k * hstep g ax * sl ax else 0))%R).
  { rewrite <- nsum_plus. apply nsum_ext; intros a Ha. unfold coord, shiftix.
    destruct (Nat.eqb_spec a ax) as [->|Hne].
    - rewrite nth_upd_same by lia. rewrite plus_IZR. ring.
    - rewrite nth_upd_other by auto. ring. }
  rewrite E.
  assert (Hs : nsum (gndim g) (fun a => if (a =? ax)%nat then (IZR k * hstep g ax * sl ax)%R else 0%R) = (IZR k * hstep g ax * sl ax)%R).
  { set (x := (IZR k * hstep g ax * sl ax)%R). clearbody x. clear - Hax. unfold nsum.
    assert (Hg : forall n s, (s <= ax < s + n)%nat -> lsum (map (fun a => if (a =? ax)%nat then x else 0%R) (seq s n)) = x).
    { assert (Hz : forall n s, (ax < s)%nat -> lsum (map (fun a => if (a =? ax)%nat then x else 0%R) (seq s n)) = 0%R).
      { induction n as [|n IH]; intros s Hs; simpl; [reflexivity|].
        destruct (Nat.eqb_spec s ax); [lia|]. rewrite IH by lia. ring. }
      induction n as [|n IH]; intros s Hs; simpl; [lia|].
      destruct (Nat.eqb_spec s ax).
      - rewrite Hz by lia. ring.
      - rewrite IH by lia. ring. }
    apply Hg; lia. }
  rewrite Hs. ring.
Qed.

Lemma pval_inb u ix : inb (shp (gdata u)) ix -> pval u ix = get (gdata u) ix.
Proof. intros H. unfold pval. rewrite wrap_inb; auto. Qed.

(* @prop C14 On samples of an affine function of position the three difference quotients return its slope wherever the stencil does not wrap around. *)
Lemma differences_exact_on_affine_lem : forall u ax c sl, periodic_field u -> (ax < gndim (ggrid (garray u)))%nat ->
  (forall ix, inb (gshape (ggrid (garray u))) ix ->
     get (gdata (garray u)) ix = affine (ggrid (garray u)) (goff (garray u)) c sl ix) ->
  exists wf wb wc, forward_difference u ax = Ok wf /\ backward_difference u ax = Ok wb /\ central_difference u ax = Ok wc /\
  forall ix, inb (gshape (ggrid (garray u))) ix ->
    (inb (gshape (ggrid (garray u))) (next ax ix) -> get (gdata wf) ix = sl ax) /\
    (inb (gshape (ggrid (garray u))) (prev ax ix) -> get (gdata wb) ix = sl ax) /\
    (inb (gshape (ggrid (garray u))) (next ax ix) -> inb (gshape (ggrid (garray u))) (prev ax ix) -> get (gdata wc) ix = sl ax).
Proof.
  intros u ax c sl Hu Hax Hd.
  destruct (forward_difference_spec_lem Hu Hax) as (wf & Ef & (_ & _ & _ & Df)).
  destruct (backward_difference_spec_lem Hu Hax) as (wb & Eb & (_ & _ & _ & Db)).
  destruct (central_difference_spec_lem Hu Hax) as (wc & Ec & (_ & _ & _ & Dc)).
  exists wf, wb, wc. repeat split; auto.
  all: assert (Hs : shp (gdata (garray u)) = gshape (ggrid (garray u))) by apply Hu.
  all: assert (Hh : hstep (ggrid (garray u)) ax <> 0%R)
    by (destruct Hu as (((H1 & _ & _ & H2) & _) & _); rewrite Forall_forall in H2; apply H2; apply nth_In; rewrite H1; auto).
  all: assert (HL : forall ix, inb (gshape (ggrid (garray u))) ix -> length ix = gndim (ggrid (garray u))) by (intros; apply inb_length; auto).
  - intros Hn. rewrite Df by auto. unfold next in *. rewrite !pval_inb by (rewrite Hs; auto).
    rewrite !Hd by auto. rewrite affine_shift by auto. field; auto.
  - intros Hn. rewrite Db by auto. unfold prev in *. rewrite !pval_inb by (rewrite Hs; auto).
    rewrite !Hd by auto. rewrite affine_shift by auto. field; auto.
  - intros Hn Hp. rewrite Dc by auto. unfold next, prev in *. rewrite !pval_inb by (rewrite Hs; auto).
    rewrite !Hd by auto. rewrite !affine_shift by auto. field; auto.
Qed.
(* @ex *)
Lemma differences_exact_on_affine_ex_lem :
  let g := mkgrid [4%nat] [2%R] [(1%R, 9%R)] in
  (forall ix, inb [4%nat] ix -> get (mkarr [4%nat] (fun ix => (5 + 3 * (1 + (IZR (nth 0%nat ix 0%Z) + / 2) * 2))%R)) ix = affine g [(1 # 2)%Q] 5%R (fun _ => 3%R) ix) /\
  inb [4%nat] [1%Z] /\ inb [4%nat] (next 0 [1%Z]) /\ inb [4%nat] (prev 0 [1%Z]).
Proof.
  split; [|simpl; lia]. intros ix Hi. unfold affine, nsum, coord, hstep, gndim; simpl. unfold Q2R; simpl. lra.
Qed.

Lemma lincomb_pval al be u w s ix : periodic_field u -> periodic_field w -> periodic_field s ->
  lincomb al be u w s -> length ix = gndim (ggrid (garray s)) ->
  pval (garray s) ix = (al * pval (garray u) ix + be * pval (garray w) ix)%R.
Proof.
  intros Hu Hw Hs (G1 & G2 & H) HL. unfold pval.
  replace (shp (gdata (garray u))) with (gshape (ggrid (garray s))) by (rewrite <- G1; symmetry; apply Hu).
  replace (shp (gdata (garray w))) with (gshape (ggrid (garray s))) by (rewrite <- G2; symmetry; apply Hw).
  replace (shp (gdata (garray s))) with (gshape (ggrid (garray s))) by (symmetry; apply Hs).
  apply H. apply inb_wrap; auto. apply Hs.
Qed.

(* @prop C14 The difference quotients are linear. *)
Lemma differences_linear_lem : forall al be u w s ax,
  periodic_field u -> periodic_field w -> periodic_field s -> lincomb al be u w s -> (ax < gndim (ggrid (garray s)))%nat ->
  forall D, In D [forward_difference; backward_difference; central_difference] ->
  exists du dw ds, D u ax = Ok du /\ D w ax = Ok dw /\ D s ax = Ok ds /\
    forall ix, inb (gshape (ggrid (garray s))) ix -> get (gdata ds) ix = (al * get (gdata du) ix + be * get (gdata dw) ix)%R.
Proof.
  intros al be u w s ax Hu Hw Hs Hl Hax D HD.
  pose proof Hl as (G1 & G2 & _).
  assert (Hpv : forall ix, length ix = gndim (ggrid (garray s)) -> pval (garray s) ix = (al * pval (garray u) ix + be * pval (garray w) ix)%R)
    by (intros; eapply lincomb_pval; eauto).
  assert (Haxu : (ax < gndim (ggrid (garray u)))%nat) by (rewrite G1; auto).
  assert (Haxw : (ax < gndim (ggrid (garray w)))%nat) by (rewrite G2; auto).
  destruct HD as [<-|[<-|[<-|[]]]].
  - destruct (forward_difference_spec_lem Hu Haxu) as (du & Eu & (_ & _ & _ & Du)).
    destruct (forward_difference_spec_lem Hw Haxw) as (dw & Ew & (_ & _ & _ & Dw)).
    destruct (forward_difference_spec_lem Hs Hax) as (ds & Es & (_ & _ & _ & Ds)).
    exists du, dw, ds. repeat split; auto. intros ix Hi.
    rewrite Ds by auto. rewrite Du, Dw by (rewrite ?G1, ?G2; auto). rewrite G1, G2.
    pose proof (inb_length _ _ Hi) as HL.
    rewrite !Hpv by (unfold next; rewrite ?shiftix_length; auto). unfold Rdiv; ring.
  - destruct (backward_difference_spec_lem Hu Haxu) as (du & Eu & (_ & _ & _ & Du)).
    destruct (backward_difference_spec_lem Hw Haxw) as (dw & Ew & (_ & _ & _ & Dw)).
    destruct (backward_difference_spec_lem Hs Hax) as (ds & Es & (_ & _ & _ & Ds)).
    exists du, dw, ds. repeat split; auto. intros ix Hi.
    rewrite Ds by auto. rewrite Du, Dw by (rewrite ?G1, ?G2; auto). rewrite G1, G2.
    pose proof (inb_length _ _ Hi) as HL.
    rewrite !Hpv by (unfold prev; rewrite ?shiftix_length; auto). unfold Rdiv; ring.
  - destruct (central_difference_spec_lem Hu Haxu) as (du & Eu & (_ & _ & _ & Du)).
    destruct (central_difference_spec_lem Hw Haxw) as (dw & Ew & (_ & _ & _ & Dw)).
    destruct (central_difference_spec_lem Hs Hax) as (ds & Es & (_ & _ & _ & Ds)).
    exists du, dw, ds. repeat split; auto. intros ix Hi.
    rewrite Ds by auto. rewrite Du, Dw by (rewrite ?G1, ?G2; auto). rewrite G1, G2.
    pose proof (inb_length _ _ Hi) as HL.
    rewrite !Hpv by (unfold prev, next; rewrite ?shiftix_length; auto). unfold Rdiv; ring.
Qed.
(* @ex *)
Lemma differences_linear_ex_lem :
  let mk f := mkgv (mkga (mkarr [3%nat] f) [(1 # 2)%Q] (mkgrid [3%nat] [1%R] [(0%R, 3%R)])) (periodic_bc 1) in
  lincomb 2 3 (mk (fun ix => IZR (nth 0 ix 0%Z))) (mk (fun _ => 1%R)) (mk (fun ix => (2 * IZR (nth 0%nat ix 0%Z) + 3)%R)).
Proof. simpl. split; [reflexivity|]. split; [reflexivity|]. simpl. intros. lra. Qed.

(** A field all of whose entries equal [c]. *)
Definition constant_field (u : gvar) (c : R) : Prop :=
  forall ix, inb (gshape (ggrid (garray u))) ix -> get (gdata (garray u)) ix = c.
Lemma constant_pval u c ix : periodic_field u -> constant_field u c -> length ix = gndim (ggrid (garray u)) -> pval (garray u) ix = c.
Proof.
  intros Hu Hc HL. unfold pval. replace (shp (gdata (garray u))) with (gshape (ggrid (garray u))) by (symmetry; apply Hu).
  apply Hc. apply inb_wrap; auto. apply Hu.
Qed.

(* @prop C14 The difference quotients of a constant are zero. *)
Lemma differences_of_constant_lem : forall u c ax, periodic_field u -> constant_field u c -> (ax < gndim (ggrid (garray u)))%nat ->
  forall D, In D [forward_difference; backward_difference; central_difference] ->
  exists w, D u ax = Ok w /\ forall ix, inb (gshape (ggrid (garray u))) ix -> get (gdata w) ix = 0%R.
Proof.
  intros u c ax Hu Hc Hax D HD. destruct HD as [<-|[<-|[<-|[]]]].
  - destruct (forward_difference_spec_lem Hu Hax) as (w & E & (_ & _ & _ & Dw)). exists w; split; auto.
    intros ix Hi. pose proof (inb_length _ _ Hi) as HL. rewrite Dw by auto.
    rewrite !(fun ix => @constant_pval u c ix Hu Hc) by (unfold next; rewrite ?shiftix_length; auto). unfold Rdiv; ring.
  - destruct (backward_difference_spec_lem Hu Hax) as (w & E & (_ & _ & _ & Dw)). exists w; split; auto.
    intros ix Hi. pose proof (inb_length _ _ Hi) as HL. rewrite Dw by auto.
    rewrite !(fun ix => @constant_pval u c ix Hu Hc) by (unfold prev; rewrite ?shiftix_length; auto). unfold Rdiv; ring.
  - destruct (central_difference_spec_lem Hu Hax) as (w & E & (_ & _ & _ & Dw)). exists w; split; auto.
    intros ix Hi. pose proof (inb_length _ _ Hi) as HL. rewrite Dw by auto.
    rewrite !(fun ix => @constant_pval u c ix Hu Hc) by (unfold next, prev; rewrite ?shiftix_length; auto). unfold Rdiv; ring.
Qed.
(* @ex *)
Lemma differences_of_constant_ex_lem :
  constant_field (mkgv (mkga (afull [3%nat] 7%R) [(1 # 2)%Q] (mkgrid [3%nat] [1%R] [(0%R, 3%R)])) (periodic_bc 1)) 7.
Proof. intros ix _. reflexivity. Qed.

(** ** Laplacian *)
(* @prop C15 laplacian(u) of a periodic variable is the sum over axes of (u[+1] - 2u + u[-1])/h^2, at the offset of u. *)
Lemma laplacian_spec_lem : forall u, periodic_field u ->
  exists w, laplacian u = Ok w /\
    is_field w (ggrid (garray u)) (goff (garray u))
      (fun ix => nsum (gndim (ggrid (garray u))) (fun ax =>
         (pval (garray u) (next ax ix) - 2 * pval (garray u) ix + pval (garray u) (prev ax ix))
         / (hstep (ggrid (garray u)) ax * hstep (ggrid (garray u)) ax))%R).
Proof.
  intros u Hu. destruct (@lap_prep (ggrid (garray u)) (goff (garray u)) (pval (garray u)) u) as (w & E & H);
    try apply Hu; [apply pf_per; auto | apply pf_pvar; auto |].
  exists w; split; auto. eapply prep_ext; [|exact H]. intros ix Hi. unfold lapF. apply nsum_ext; intros a Ha.
  assert (Hh : hstep (ggrid (garray u)) a <> 0%R)
    by (destruct Hu as (((H1 & _ & _ & H2) & _) & _); rewrite Forall_forall in H2; apply H2; apply nth_In; rewrite H1; auto).
  unfold next, prev, Rsqr. field; auto.
Qed.
(* @ex *)
Lemma laplacian_spec_ex_lem :
  let u := mkgv (mkga (mkarr [4%nat] (fun ix => IZR (nth 0 ix 0 * nth 0 ix 0)%Z)) [(1 # 2)%Q]
                      (mkgrid [4%nat] [1%R] [(0%R, 4%R)])) (periodic_bc 1) in
  exists w, laplacian u = Ok w /\ get (gdata w) [2%Z] = 2%R.
Proof.
  intros u. destruct (@laplacian_spec_lem u) as (w & E & (A & B & C & D)).
  - repeat split; repeat constructor; (lia || lra).
  - exists w. split; [exact E|]. rewrite D by (simpl; lia). unfold u, nsum, pval, hstep, gndim, prev, next, shiftix; cbn. lra.
Qed.

Lemma mapM_seq {B} (f : nat -> result B) (P : nat -> B -> Prop) d :
  (forall i, (i < d)%nat -> exists w, f i = Ok w /\ P i w) ->
  exists ws, mapM f (seq 0 d) = Ok ws /\ length ws = d /\ forall i dw, (i < d)%nat -> P i (nth i ws dw).
Proof.
  intros H.
  assert (Hgen : forall n s, (s + n <= d)%nat -> exists ws, mapM f (seq s n) = Ok ws /\ length ws = n /\
     forall i dw, (i < n)%nat -> P (s + i)%nat (nth i ws dw)).
  { induction n as [|n IH]; intros s Hs; simpl.
    - exists []; repeat split; auto. intros; lia.
    - destruct (H s) as (w & E & Hw); [lia|]. rewrite E. cbn [bind].
      destruct (IH (S s)) as (ws & Es & HL & Hws); [lia|]. rewrite Es. cbn [bind].
      exists (w :: ws); repeat split; simpl; auto.
      intros [|i] dw Hi; simpl; [rewrite Nat.add_0_r; auto|].
      specialize (Hws i dw ltac:(lia)). rewrite Nat.add_succ_r. exact Hws. }
  destruct (Hgen d 0%nat) as (ws & E & HL & Hws); [lia|]. exists ws; auto.
Qed.

Lemma grad_prep u : periodic_field u ->
  exists gs, forward_gradient u = Ok gs /\ length gs = gndim (ggrid (garray u)) /\
    forall i dw, (i < gndim (ggrid (garray u)))%nat ->
      prep (ggrid (garray u)) (offs i (1 # 2) (goff (garray u))) (fdF (ggrid (garray u)) i (pval (garray u))) (nth i gs dw).
Proof.
  intros Hu. unfold forward_gradient, all_axes. apply (@mapM_seq garr (forward_difference u) (fun i w => prep (ggrid (garray u)) (offs i (1 # 2) (goff (garray u))) (fdF (ggrid (garray u)) i (pval (garray u))) w)). intros i Hi.
  destruct (forward_difference_spec_lem Hu Hi) as (w & E & H). exists w; auto.
Qed.

Lemma grad_pvec u gs b : periodic_field u -> length gs = gndim (ggrid (garray u)) -> perbc (ggrid (garray u)) b ->
  (forall i dw, (i < gndim (ggrid (garray u)))%nat ->
      prep (ggrid (garray u)) (offs i (1 # 2) (goff (garray u))) (fdF (ggrid (garray u)) i (pval (garray u))) (nth i gs dw)) ->
  pvec (ggrid (garray u)) (fun i => offs i (1 # 2) (goff (garray u))) (fun i => fdF (ggrid (garray u)) i (pval (garray u)))
    (map (fun w => mkgv w b) gs).
Proof.
  intros Hu HL Hb H. split; [rewrite map_length; auto|]. intros i Hi.
  rewrite (@nth_map' _ _ (fun w => mkgv w b) gs i dga) by lia. split; simpl; auto.
Qed.

Lemma offs_half_back i o : off_eq (offs i (- 1 # 2) (offs i (1 # 2) o)) o.
Proof.
  eapply off_eq_trans; [apply offs_offs|]. eapply off_eq_trans; [|apply (@offs_0 i)].
  apply off_eq_offs; [apply off_eq_refl | reflexivity].
Qed.

(* @prop C15 laplacian(u) equals divergence(forward gradient of u): same data, same offset, same grid, for every periodic variable (at least one axis). *)
Lemma laplacian_is_div_grad_lem : forall u b, periodic_field u -> (0 < gndim (ggrid (garray u)))%nat -> perbc (ggrid (garray u)) b ->
  exists l gs d, laplacian u = Ok l /\ forward_gradient u = Ok gs /\
    divergence (map (fun w => mkgv w b) gs) = Ok d /\ same_field d l.
Proof.
  intros u b Hu Hd Hb.
  destruct (@lap_prep (ggrid (garray u)) (goff (garray u)) (pval (garray u)) u) as (l & El & (Gl & Ol & Sl & Dl));
    try apply Hu; [apply pf_per; auto | apply pf_pvar; auto |].
  destruct (grad_prep Hu) as (gs & Eg & HL & Hg).
  destruct (@div_prep (ggrid (garray u)) (goff (garray u)) (fun i => offs i (1 # 2) (goff (garray u)))
     (fun i => fdF (ggrid (garray u)) i (pval (garray u))) (map (fun w => mkgv w b) gs)) as (d & Ed & (Gd & Od & Sd & Dd)); auto.
  - apply Hu.
  - apply grad_pvec; auto.
  - intros i Hi. apply periodic_fdF. apply pf_per; auto.
  - intros i Hi. split; [rewrite offs_length; apply Hu | apply offs_half_back].
  - exists l, gs, d. repeat split; auto; try congruence.
    + eapply off_eq_trans; [exact Od | apply off_eq_sym; exact Ol].
    + intros ix Hi. rewrite Sd in Hi. rewrite Dd, Dl by auto. symmetry. apply lapF_is_div_grad.
Qed.
(* @ex *)
Lemma laplacian_is_div_grad_ex_lem :
  let u := mkgv (mkga (mkarr [3%nat; 2%nat] (fun ix => IZR (nth 0 ix 0 * 10 + nth 1 ix 0)%Z)) [(1 # 2)%Q; 1%Q]
                      (mkgrid [3%nat; 2%nat] [1%R; 2%R] [(0%R, 3%R); (0%R, 4%R)])) (periodic_bc 2) in
  periodic_field u /\ (0 < gndim (ggrid (garray u)))%nat /\ perbc (ggrid (garray u)) (periodic_bc 2).
Proof. simpl. split; [repeat split; repeat constructor; (lia || lra)|]. split; [unfold gndim; simpl; lia | reflexivity]. Qed.

(* @prop C15 The laplacian is linear and vanishes on constants. *)
Lemma laplacian_linear_lem : forall al be u w s,
  periodic_field u -> periodic_field w -> periodic_field s -> lincomb al be u w s ->
  exists lu lw ls, laplacian u = Ok lu /\ laplacian w = Ok lw /\ laplacian s = Ok ls /\
    forall ix, inb (gshape (ggrid (garray s))) ix -> get (gdata ls) ix = (al * get (gdata lu) ix + be * get (gdata lw) ix)%R.
Proof.
  intros al be u w s Hu Hw Hs Hl. pose proof Hl as (G1 & G2 & _).
  destruct (laplacian_spec_lem Hu) as (lu & Eu & (_ & _ & _ & Du)).
  destruct (laplacian_spec_lem Hw) as (lw & Ew & (_ & _ & _ & Dw)).
  destruct (laplacian_spec_lem Hs) as (ls & Es & (_ & _ & _ & Ds)).
  exists lu, lw, ls. repeat split; auto. intros ix Hi. pose proof (inb_length _ _ Hi) as HL.
  rewrite Ds by auto. rewrite Du, Dw by (rewrite ?G1, ?G2; auto). rewrite G1, G2.
  rewrite <- !nsum_scal, <- nsum_plus. apply nsum_ext; intros a Ha.
  rewrite !(fun ix => @lincomb_pval al be u w s ix Hu Hw Hs Hl) by (unfold next, prev; rewrite ?shiftix_length; auto). unfold Rdiv; ring.
Qed.
(* @ex *)
Lemma laplacian_linear_ex_lem :
  let mk f := mkgv (mkga (mkarr [3%nat] f) [(1 # 2)%Q] (mkgrid [3%nat] [1%R] [(0%R, 3%R)])) (periodic_bc 1) in
  lincomb 2 3 (mk (fun ix => IZR (nth 0 ix 0%Z))) (mk (fun _ => 1%R)) (mk (fun ix => (2 * IZR (nth 0%nat ix 0%Z) + 3)%R)).
Proof. simpl. split; [reflexivity|]. split; [reflexivity|]. simpl. intros. lra. Qed.

(* @prop C15 The laplacian of a constant is zero. *)
Lemma laplacian_constant_lem : forall u c, periodic_field u -> constant_field u c ->
  exists w, laplacian u = Ok w /\ forall ix, inb (gshape (ggrid (garray u))) ix -> get (gdata w) ix = 0%R.
Proof.
  intros u c Hu Hc. destruct (laplacian_spec_lem Hu) as (w & E & (_ & _ & _ & D)). exists w; split; auto.
  intros ix Hi. pose proof (inb_length _ _ Hi) as HL. rewrite D by auto. apply nsum_zero; intros a Ha.
  rewrite !(fun ix => @constant_pval u c ix Hu Hc) by (unfold next, prev; rewrite ?shiftix_length; auto). unfold Rdiv; ring.
Qed.
(* @ex *)
Lemma laplacian_constant_ex_lem :
  constant_field (mkgv (mkga (afull [3%nat] 7%R) [(1 # 2)%Q] (mkgrid [3%nat] [1%R] [(0%R, 3%R)])) (periodic_bc 1)) 7.
Proof. intros ix _. reflexivity. Qed.

(** ** Divergence: what it returns, when it returns *)
Lemma ga_op2_ok f a b w : ga_op2 f a b = Ok w -> ggrid a = ggrid w /\ ggrid b = ggrid w /\ off_eq (goff a) (goff w) /\ off_eq (goff b) (goff w).
Proof.
  unfold ga_op2, array_ufunc. cbn [existsb is_gv orb map raw gas]. intros H.
  apply bind_Ok_inv in H. destruct H as (d & Hd & H). apply bind_Ok_inv in H. destruct H as (o & Ho & H).
  apply bind_Ok_inv in H. destruct H as (g & Hg & H). injection H as <-. simpl.
  simpl in Ho. destruct (off_eqb (goff a) (goff b)) eqn:Eo; [|discriminate]. simpl in Ho. injection Ho as <-.
  simpl in Hg. destruct (grid_eqb (ggrid a) (ggrid b)) eqn:Egr; [|discriminate]. simpl in Hg. injection Hg as <-.
  apply off_eqb_iff in Eo. apply grid_eqb_eq in Egr. repeat split; auto; [apply off_eq_refl | apply off_eq_sym; auto].
Qed.

Lemma foldM_add_off l acc w : foldM ga_add acc l = Ok w ->
  off_eq (goff acc) (goff w) /\ forall x, In x l -> off_eq (goff x) (goff w).
Proof.
  revert acc; induction l as [|y l IH]; intros acc H; simpl in H.
  - injection H as <-. split; [apply off_eq_refl | intros ? []].
  - apply bind_Ok_inv in H. destruct H as (a & Ha & H). apply ga_op2_ok in Ha. destruct Ha as (_ & _ & O1 & O2).
    destruct (IH _ H) as (O3 & O4). split; [eapply off_eq_trans; eauto|].
    intros x [<-|Hx]; [eapply off_eq_trans; eauto | auto].
Qed.

Lemma ga_sum_off l w : ga_sum l = Ok w -> forall x, In x l -> off_eq (goff x) (goff w).
Proof.
  destruct l as [|d l]; simpl; [discriminate|]. intros H. apply bind_Ok_inv in H. destruct H as (d0 & E0 & H).
  assert (O0 : off_eq (goff d) (goff d0)).
  { unfold array_ufunc in E0. cbn [existsb is_gv orb map raw gas] in E0. apply bind_Ok_inv in E0. destruct E0 as (x & _ & E0).
    simpl in E0. injection E0 as <-. apply off_eq_refl. }
  apply foldM_add_off in H. destruct H as (H1 & H2). intros x [<-|Hx]; [eapply off_eq_trans; eauto | auto].
Qed.

Lemma enumerate_nth {A} (l : list A) k da : (k < length l)%nat -> nth k (enumerate l) (0%nat, da) = (k, nth k l da).
Proof. intros H. unfold enumerate. rewrite combine_nth by (rewrite seq_length; auto). rewrite seq_nth by auto. reflexivity. Qed.
Lemma enumerate_length {A} (l : list A) : length (enumerate l) = length l.
Proof. unfold enumerate. rewrite combine_length, seq_length. lia. Qed.

Lemma sum_diffs_inv (D : gvar -> nat -> result garr) (T : nat -> list Z -> R) (off : nat -> list Q) g v ws w :
  (forall i, (i < length v)%nat -> exists x, D (nth i v dgv) i = Ok x /\ prep g (off i) (T i) x) ->
  mapM (fun au => D (snd au) (fst au)) (enumerate v) = Ok ws -> ga_sum ws = Ok w ->
  prep g (goff w) (fun ix => nsum (length v) (fun i => T i ix)) w.
Proof.
  intros HD Hm Hs. apply mapM_Ok_inv in Hm. pose proof (Forall2_length' Hm) as HL. rewrite enumerate_length in HL.
  assert (Hws : forall i, (i < length ws)%nat -> prep g (goff w) (T i) (nth i ws dga)).
  { intros i Hi. pose proof (@Forall2_nth' _ _ _ _ _ i (0%nat, dgv) dga Hm) as Hx.
    rewrite enumerate_length, enumerate_nth in Hx by lia. specialize (Hx ltac:(lia)). cbn [fst snd] in Hx.
    destruct (HD i ltac:(lia)) as (x & Ex & (A & B & C & Dx)). rewrite Ex in Hx. injection Hx as Hx.
    rewrite <- Hx. split; auto. split; [|auto]. rewrite Hx. eapply ga_sum_off; [exact Hs|]. apply nth_In; auto. }
  assert (Hpos : (0 < length ws)%nat) by (destruct ws; simpl in *; [discriminate | lia]).
  destruct (@ga_sum_prep g (goff w) T ws Hpos Hws) as (w' & E & H). rewrite Hs in E. injection E as <-.
  rewrite <- HL in H. exact H.
Qed.

Lemma periodic_vec_nth g v i : periodic_vec g v -> (i < gndim g)%nat ->
  periodic_field (nth i v dgv) /\ ggrid (garray (nth i v dgv)) = g.
Proof. intros (HL & HF) Hi. rewrite Forall_forall in HF. apply HF. apply nth_In. lia. Qed.

Lemma vval_nth v i ix : (i < length v)%nat -> vval v i ix = pval (garray (nth i v dgv)) ix.
Proof. intros H. unfold vval. rewrite (nth_error_nth' v dgv H). reflexivity. Qed.

Lemma periodic_vval g v i : periodic_vec g v -> (i < gndim g)%nat -> periodic (gshape g) (vval v i).
Proof.
  intros Hv Hi ix HL. destruct (periodic_vec_nth Hv Hi) as (Hf & Hg).
  rewrite !vval_nth by (destruct Hv; lia). rewrite <- Hg in HL |- *. apply (pf_per Hf); auto.
Qed.

Lemma divergence_returns g v w : (0 < gndim g)%nat -> periodic_vec g v -> divergence v = Ok w ->
  prep g (goff w) (divF g (vval v)) w.
Proof.
  intros Hd Hv H. unfold divergence in H. apply bind_Ok_inv in H. destruct H as (g' & Eg & H).
  destruct (negb (length v =? gndim g')%nat); [discriminate|].
  apply bind_Ok_inv in H. destruct H as (ws & Em & Es).
  assert (HL : length v = gndim g) by apply Hv.
  pose proof (@sum_diffs_inv backward_difference (fun i => bdF g i (vval v i))
     (fun i => offs i (- 1 # 2) (goff (garray (nth i v dgv)))) g v ws w) as Hx.
  rewrite HL in Hx. apply Hx; auto. intros i Hi.
  destruct (periodic_vec_nth Hv Hi) as (Hf & Hg).
  destruct (@backward_difference_spec_lem _ i Hf) as (x & Ex & Hxx); [rewrite Hg; auto|].
  rewrite Hg in Hxx. exists x; split; auto. eapply prep_ext; [|exact Hxx]. intros ix Hi2. unfold bdF.
  rewrite !vval_nth by lia. reflexivity.
Qed.

Lemma centered_divergence_returns g v w : (0 < gndim g)%nat -> periodic_vec g v -> centered_divergence v = Ok w ->
  prep g (goff w) (cdivF g (vval v)) w.
Proof.
  intros Hd Hv H. unfold centered_divergence in H. apply bind_Ok_inv in H. destruct H as (g' & Eg & H).
  destruct (negb (length v =? gndim g')%nat); [discriminate|].
  apply bind_Ok_inv in H. destruct H as (ws & Em & Es).
  assert (HL : length v = gndim g) by apply Hv.
  pose proof (@sum_diffs_inv central_difference (fun i => cdF g i (vval v i))
     (fun i => (goff (garray (nth i v dgv)))) g v ws w) as Hx.
  rewrite HL in Hx. apply Hx; auto. intros i Hi.
  destruct (periodic_vec_nth Hv Hi) as (Hf & Hg).
  destruct (@central_difference_spec_lem _ i Hf) as (x & Ex & Hxx); [rewrite Hg; auto|].
  rewrite Hg in Hxx. exists x; split; auto. eapply prep_ext; [|exact Hxx]. intros ix Hi2. unfold cdF.
  rewrite !vval_nth by lia. reflexivity.
Qed.

Lemma total_prep g o F w : prep g o F w -> total (gdata w) = asum (gshape g) F.
Proof. intros (A & B & C & D). unfold total. rewrite C. apply asum_ext; auto. Qed.

Lemma periodic_vec_wfg g v : (0 < gndim g)%nat -> periodic_vec g v -> wfg g.
Proof. intros Hd Hv. destruct (@periodic_vec_nth g v 0%nat Hv Hd) as (((H & _) & _) & <-). exact H. Qed.

(* @prop C16 The divergence of a staggered periodic velocity is defined, sits at the common cell point, and is the sum over axes of (v_i[ix] - v_i[ix-1])/h_i. *)
Lemma divergence_spec_lem : forall g o v, (0 < gndim g)%nat -> periodic_vec g v -> length o = gndim g -> face_aligned o v ->
  exists w, divergence v = Ok w /\
    is_field w g o (fun ix => nsum (gndim g) (fun i => (vval v i ix - vval v i (prev i ix)) / hstep g i)%R).
Proof.
  intros g o v Hd Hv Ho Hf. pose proof (periodic_vec_wfg Hd Hv) as Hw. pose proof Hv as (HL & _).
  destruct (@div_prep g o (fun i => goff (garray (nth i v dgv))) (vval v) v) as (w & E & H); auto.
  - split; auto. intros i Hi. destruct (periodic_vec_nth Hv Hi) as (Hp & Hg).
    split; [|rewrite <- Hg; apply Hp]. pose proof (pf_pvar Hp) as (H & _). rewrite Hg in H.
    eapply prep_ext; [|exact H]. intros ix _. rewrite vval_nth by lia. reflexivity.
  - intros i Hi. eapply periodic_vval; eauto.
  - intros i Hi. destruct (periodic_vec_nth Hv Hi) as (((_ & _ & Hp) & _) & Hg). rewrite Hg in Hp. split; auto.
    specialize (Hf i (nth i v dgv)). rewrite (nth_error_nth' v dgv) in Hf by lia. specialize (Hf eq_refl).
    eapply off_eq_trans; [apply off_eq_offs; [exact Hf | reflexivity]|]. apply offs_half_back.
  - exists w; auto.
Qed.
(* @ex *)
Lemma divergence_spec_ex_lem :
  let g := mkgrid [3%nat; 2%nat] [1%R; 2%R] [(0%R, 3%R); (0%R, 4%R)] in
  let v := [mkgv (mkga (mkarr [3%nat; 2%nat] (fun ix => IZR (nth 0 ix 0 * 10 + nth 1 ix 0)%Z)) [1%Q; (1 # 2)%Q] g) (periodic_bc 2);
            mkgv (mkga (mkarr [3%nat; 2%nat] (fun ix => IZR (nth 0 ix 0 * nth 1 ix 0)%Z)) [(1 # 2)%Q; 1%Q] g) (periodic_bc 2)] in
  periodic_vec g v /\ face_aligned [(1 # 2)%Q; (1 # 2)%Q] v.
Proof.
  simpl. split.
  - split; [reflexivity|]. repeat constructor; simpl; (lia || lra).
  - intros [|[|[|i]]] u H; simpl in H; try discriminate; injection H as <-; simpl; repeat constructor.
Qed.

(* @prop C16 Whenever divergence or centered_divergence of periodic variables returns, its sum over all cells is zero; the sums of laplacian and of the difference quotients of a periodic variable are zero. *)
Lemma divergence_conserves_lem : forall g v w, (0 < gndim g)%nat -> periodic_vec g v ->
  divergence v = Ok w \/ centered_divergence v = Ok w -> total (gdata w) = 0%R.
Proof.
  intros g v w Hd Hv H. pose proof (periodic_vec_wfg Hd Hv) as (_ & _ & Hp & _). destruct H as [H|H].
  - rewrite (total_prep (divergence_returns Hd Hv H)). apply sum_divF; auto. intros; eapply periodic_vval; eauto.
  - rewrite (total_prep (centered_divergence_returns Hd Hv H)). apply sum_cdivF; auto. intros; eapply periodic_vval; eauto.
Qed.
(* @ex *)
Lemma divergence_conserves_ex_lem :
  let g := mkgrid [3%nat] [2%R] [(0%R, 6%R)] in
  let v := [mkgv (mkga (mkarr [3%nat] (fun ix => IZR (nth 0 ix 0%Z))) [1%Q] g) (periodic_bc 1)] in
  periodic_vec g v /\ exists w, divergence v = Ok w /\ get (gdata w) [0%Z] = (-1)%R.
Proof.
  intros g v. assert (Hv : periodic_vec g v) by (split; [reflexivity|]; repeat constructor; simpl; (lia || lra)).
  split; auto. destruct (@divergence_spec_lem g [(1 # 2)%Q] v) as (w & E & (_ & _ & _ & D)); auto.
  - intros [|[|i]] u H; simpl in H; try discriminate; injection H as <-; simpl; repeat constructor.
  - exists w; split; auto. rewrite D by (simpl; lia). unfold nsum, vval, pval, hstep, v, prev, shiftix; cbn. lra.
Qed.

(* @prop C16 Sums of difference quotients and of the laplacian vanish. *)
Lemma differences_conserve_lem : forall u ax w, periodic_field u -> (ax < gndim (ggrid (garray u)))%nat ->
  In (Ok w) [forward_difference u ax; backward_difference u ax; central_difference u ax; laplacian u] ->
  total (gdata w) = 0%R.
Proof.
  intros u ax w Hu Hax H.
  assert (Hp : allpos (gshape (ggrid (garray u)))) by apply Hu. pose proof (pf_per Hu) as HF.
  destruct H as [H|[H|[H|[H|[]]]]].
  - destruct (forward_difference_spec_lem Hu Hax) as (w' & E & Hw). rewrite E in H. injection H as <-.
    rewrite (total_prep Hw). apply (sum_fdF (ggrid (garray u)) ax Hp HF).
  - destruct (backward_difference_spec_lem Hu Hax) as (w' & E & Hw). rewrite E in H. injection H as <-.
    rewrite (total_prep Hw). apply (sum_bdF (ggrid (garray u)) ax Hp HF).
  - destruct (central_difference_spec_lem Hu Hax) as (w' & E & Hw). rewrite E in H. injection H as <-.
    rewrite (total_prep Hw). apply (sum_cdF (ggrid (garray u)) ax Hp HF).
  - destruct (@lap_prep (ggrid (garray u)) (goff (garray u)) (pval (garray u)) u) as (w' & E & Hw);
      try apply Hu; [apply pf_per; auto | apply pf_pvar; auto |].
    rewrite E in H. injection H as <-. rewrite (total_prep Hw). apply sum_lapF; auto.
Qed.
(* @ex *)
Lemma differences_conserve_ex_lem :
  let u := mkgv (mkga (mkarr [3%nat; 2%nat] (fun ix => IZR (nth 0 ix 0 * 10 + nth 1 ix 0)%Z)) [(1 # 2)%Q; 1%Q]
                      (mkgrid [3%nat; 2%nat] [1%R; 2%R] [(0%R, 3%R); (0%R, 4%R)])) (periodic_bc 2) in
  periodic_field u /\ exists w, In (Ok w) [forward_difference u 1; backward_difference u 1; central_difference u 1; laplacian u].
Proof.
  intros u. assert (Hu : periodic_field u) by (repeat split; repeat constructor; (lia || lra)). split; auto.
  destruct (@forward_difference_spec_lem u 1%nat Hu) as (w & E & _); [unfold gndim; simpl; lia|].
  exists w. simpl. left. exact E.
Qed.

(* @prop C16 Summation by parts: sum(u * div v) = - sum(grad u . v) for a cell variable u and face-aligned v. *)
Lemma summation_by_parts_lem : forall g o u v, (0 < gndim g)%nat -> periodic_vec g v -> length o = gndim g -> face_aligned o v ->
  periodic_field u -> ggrid (garray u) = g -> off_eq (goff (garray u)) o ->
  exists d gs, divergence v = Ok d /\ forward_gradient u = Ok gs /\
    asum (gshape g) (fun ix => get (gdata (garray u)) ix * get (gdata d) ix)%R =
    (- nsum (gndim g) (fun i => asum (gshape g) (fun ix => get (gdata (nth i gs (garray u))) ix * vval v i ix)))%R.
Proof.
  intros g o u v Hd Hv Ho Hf Hu Hg Hou.
  destruct (divergence_spec_lem Hd Hv Ho Hf) as (d & Ed & (_ & _ & _ & Dd)).
  destruct (grad_prep Hu) as (gs & Eg & HL & Hgs).
  exists d, gs. split; auto. split; auto. rewrite Hg in *.
  pose proof (periodic_vec_wfg Hd Hv) as (_ & _ & Hp & _).
  assert (HFu : periodic (gshape g) (pval (garray u))) by (rewrite <- Hg; apply pf_per; auto).
  pose proof (@sbp g (pval (garray u)) (vval v) Hp HFu) as Hx.
  rewrite (asum_ext (gshape g) _ (fun ix => pval (garray u) ix * divF g (vval v) ix)%R).
  - rewrite Hx by (intros; eapply periodic_vval; eauto). f_equal. apply nsum_ext; intros i Hi. apply asum_ext; intros ix Hix.
    destruct (Hgs i (garray u) Hi) as (_ & _ & _ & D). rewrite D by auto. reflexivity.
  - intros ix Hi. rewrite Dd by auto.
    assert (shp (gdata (garray u)) = gshape g) by (rewrite <- Hg; apply Hu).
    rewrite pval_inb by congruence. reflexivity.
Qed.
(* @ex *)
Lemma summation_by_parts_ex_lem :
  let g := mkgrid [3%nat] [2%R] [(0%R, 6%R)] in
  let v := [mkgv (mkga (mkarr [3%nat] (fun ix => IZR (nth 0 ix 0%Z))) [1%Q] g) (periodic_bc 1)] in
  let u := mkgv (mkga (mkarr [3%nat] (fun ix => IZR (nth 0 ix 0 * nth 0 ix 0)%Z)) [(1 # 2)%Q] g) (periodic_bc 1) in
  periodic_vec g v /\ face_aligned [(1 # 2)%Q] v /\ periodic_field u.
Proof.
  simpl. split; [split; [reflexivity|]; repeat constructor; simpl; (lia || lra)|]. split.
  - intros [|[|i]] u H; simpl in H; try discriminate; injection H as <-; simpl; repeat constructor.
  - repeat split; repeat constructor; (lia || lra).
Qed.

(** ** Laplacian: symmetry *)
(* @prop C18 The periodic laplacian is symmetric: sum(u * lap w) = sum(lap u * w). *)
Lemma laplacian_symmetric_lem : forall u w, periodic_field u -> periodic_field w -> ggrid (garray u) = ggrid (garray w) ->
  exists lu lw, laplacian u = Ok lu /\ laplacian w = Ok lw /\
    asum (gshape (ggrid (garray u))) (fun ix => get (gdata (garray u)) ix * get (gdata lw) ix)%R =
    asum (gshape (ggrid (garray u))) (fun ix => get (gdata lu) ix * get (gdata (garray w)) ix)%R.
Proof.
  intros u w Hu Hw Hg.
  destruct (@lap_prep (ggrid (garray u)) (goff (garray u)) (pval (garray u)) u) as (lu & Eu & (_ & _ & _ & Du));
    try apply Hu; [apply pf_per; auto | apply pf_pvar; auto |].
  destruct (@lap_prep (ggrid (garray w)) (goff (garray w)) (pval (garray w)) w) as (lw & Ew & (_ & _ & _ & Dw));
    try apply Hw; [apply pf_per; auto | apply pf_pvar; auto |].
  exists lu, lw. split; auto. split; auto. rewrite Hg in *. set (g := ggrid (garray w)) in *.
  assert (Hp : allpos (gshape g)) by apply Hw.
  assert (HFu : periodic (gshape g) (pval (garray u))) by (rewrite <- Hg; apply pf_per; auto).
  assert (HFw : periodic (gshape g) (pval (garray w))) by (apply pf_per; auto).
  assert (Hsu : shp (gdata (garray u)) = gshape g) by (rewrite <- Hg; apply Hu).
  assert (Hsw : shp (gdata (garray w)) = gshape g) by apply Hw.
  rewrite (asum_ext (gshape g) _ (fun ix => pval (garray u) ix * lapF g (pval (garray w)) ix)%R)
    by (intros ix Hi; rewrite Dw, pval_inb by (rewrite ?Hsu; auto); reflexivity).
  rewrite (asum_ext (gshape g) (fun ix => get (gdata lu) ix * _)%R (fun ix => pval (garray w) ix * lapF g (pval (garray u)) ix)%R)
    by (intros ix Hi; rewrite Du, pval_inb by (rewrite ?Hsw; auto); ring).
  rewrite !lapF_neg by auto. f_equal. apply nsum_ext; intros i Hi. apply asum_ext; intros; ring.
Qed.
(* @ex *)
Lemma laplacian_symmetric_ex_lem :
  let u := mkgv (mkga (mkarr [3%nat; 2%nat] (fun ix => IZR (nth 0 ix 0 * 10 + nth 1 ix 0)%Z)) [(1 # 2)%Q; 1%Q]
                      (mkgrid [3%nat; 2%nat] [1%R; 2%R] [(0%R, 3%R); (0%R, 4%R)])) (periodic_bc 2) in
  periodic_field u.
Proof. repeat split; repeat constructor; (lia || lra). Qed.

(* @prop C18 sum(u * lap u) is minus the sum over axes of the squared forward differences, hence never positive. *)
Lemma laplacian_negative_lem : forall u, periodic_field u ->
  exists lu gs, laplacian u = Ok lu /\ forward_gradient u = Ok gs /\
    asum (gshape (ggrid (garray u))) (fun ix => get (gdata (garray u)) ix * get (gdata lu) ix)%R =
    (- nsum (gndim (ggrid (garray u))) (fun i => asum (gshape (ggrid (garray u))) (fun ix => Rsqr (get (gdata (nth i gs (garray u))) ix))))%R /\
    (asum (gshape (ggrid (garray u))) (fun ix => get (gdata (garray u)) ix * get (gdata lu) ix) <= 0)%R.
Proof.
  intros u Hu.
  destruct (@lap_prep (ggrid (garray u)) (goff (garray u)) (pval (garray u)) u) as (lu & Eu & (_ & _ & _ & Du));
    try apply Hu; [apply pf_per; auto | apply pf_pvar; auto |].
  destruct (grad_prep Hu) as (gs & Eg & HL & Hgs). exists lu, gs. split; auto. split; auto.
  set (g := ggrid (garray u)) in *.
  assert (Hp : allpos (gshape g)) by apply Hu.
  assert (HFu : periodic (gshape g) (pval (garray u))) by (apply pf_per; auto).
  assert (Hsu : shp (gdata (garray u)) = gshape g) by apply Hu.
  assert (E : asum (gshape g) (fun ix => get (gdata (garray u)) ix * get (gdata lu) ix)%R =
    (- nsum (gndim g) (fun i => asum (gshape g) (fun ix => Rsqr (get (gdata (nth i gs (garray u))) ix))))%R).
  { rewrite (asum_ext (gshape g) _ (fun ix => pval (garray u) ix * lapF g (pval (garray u)) ix)%R)
      by (intros ix Hi; rewrite Du, pval_inb by (rewrite ?Hsu; auto); reflexivity).
    rewrite lapF_neg by auto. f_equal. apply nsum_ext; intros i Hi. apply asum_ext; intros ix Hix.
    destruct (Hgs i (garray u) Hi) as (_ & _ & _ & D). rewrite D by auto. reflexivity. }
  split; auto. rewrite E.
  assert (0 <= nsum (gndim g) (fun i => asum (gshape g) (fun ix => Rsqr (get (gdata (nth i gs (garray u))) ix))))%R; [|lra].
  apply nsum_nonneg; intros i Hi. apply asum_nonneg; intros ix _. apply Rle_0_sqr.
Qed.
(* @ex *)
Lemma laplacian_negative_ex_lem :
  let u := mkgv (mkga (mkarr [3%nat; 2%nat] (fun ix => IZR (nth 0 ix 0 * 10 + nth 1 ix 0)%Z)) [(1 # 2)%Q; 1%Q]
                      (mkgrid [3%nat; 2%nat] [1%R; 2%R] [(0%R, 3%R); (0%R, 4%R)])) (periodic_bc 2) in
  periodic_field u.
Proof. repeat split; repeat constructor; (lia || lra). Qed.

(** ** Curl *)
Lemma fd_of_prep g o F w b ax : prep g o F w -> wfg g -> periodic (gshape g) F -> (ax < gndim g)%nat -> length o = gndim g ->
  perbc g b ->
  exists d, forward_difference (mkgv w b) ax = Ok d /\ prep g (offs ax (1 # 2) o) (fdF g ax F) d.
Proof. intros Hp Hw HF Hax Ho Hb. apply fwd_prep; auto. split; auto. Qed.

(* @prop C17 curl_2d of the forward gradient of any periodic variable is zero everywhere. *)
Lemma curl_2d_of_gradient_lem : forall u b, periodic_field u -> gndim (ggrid (garray u)) = 2%nat -> perbc (ggrid (garray u)) b ->
  exists gs c, forward_gradient u = Ok gs /\ curl_2d (map (fun w => mkgv w b) gs) = Ok c /\
    off_eq (goff c) (offs 0 (1 # 2) (offs 1 (1 # 2) (goff (garray u)))) /\ shp (gdata c) = gshape (ggrid (garray u)) /\
    forall ix, inb (gshape (ggrid (garray u))) ix -> get (gdata c) ix = 0%R.
Proof.
  intros u b Hu Hd Hb. destruct (grad_prep Hu) as (gs & Eg & HL & Hgs). set (g := ggrid (garray u)) in *.
  rewrite Hd in HL. destruct gs as [|g0 [|g1 [|? ?]]]; try discriminate HL.
  assert (Hw : wfg g) by apply Hu. assert (HF : periodic (gshape g) (pval (garray u))) by (apply pf_per; auto).
  assert (Ho : length (goff (garray u)) = gndim g) by apply Hu.
  pose proof (Hgs 0%nat dga ltac:(lia)) as P0. pose proof (Hgs 1%nat dga ltac:(lia)) as P1. simpl in P0, P1.
  exists [g0; g1]. unfold curl_2d. cbn [map garray].
  rewrite (@consistent_grid_all g [g0; g1]); [|simpl; lia | simpl; intros x [<-|[<-|[]]]; [apply P0 | apply P1]].
  cbn [bind]. rewrite Hd. cbn [Nat.eqb negb].
  destruct (@fd_of_prep g _ _ g1 b 0 P1 Hw (periodic_fdF g 1 HF) ltac:(lia) ltac:(rewrite offs_length; auto) Hb) as (a & Ea & Ha).
  rewrite Ea. cbn [bind].
  destruct (@fd_of_prep g _ _ g0 b 1 P0 Hw (periodic_fdF g 0 HF) ltac:(lia) ltac:(rewrite offs_length; auto) Hb) as (a' & Ea' & Ha').
  rewrite Ea'. cbn [bind].
  assert (Ha2 : prep g (offs 0 (1 # 2) (offs 1 (1 # 2) (goff (garray u)))) (fdF g 1 (fdF g 0 (pval (garray u)))) a')
    by (eapply prep_off; [apply offs_comm | exact Ha']).
  destruct (prep_op2 Rminus Ha Ha2) as (c & Ec & (Gc & Oc & Sc & Dc)).
  exists c. repeat split; auto. intros ix Hi. rewrite Dc by auto. rewrite fdF_comm. ring.
Qed.
(* @ex *)
Lemma curl_2d_of_gradient_ex_lem :
  let u := mkgv (mkga (mkarr [3%nat; 2%nat] (fun ix => IZR (nth 0 ix 0 * 10 + nth 1 ix 0)%Z)) [(1 # 2)%Q; 1%Q]
                      (mkgrid [3%nat; 2%nat] [1%R; 2%R] [(0%R, 3%R); (0%R, 4%R)])) (periodic_bc 2) in
  periodic_field u /\ gndim (ggrid (garray u)) = 2%nat.
Proof. repeat split; repeat constructor; (lia || lra). Qed.

Lemma ga_sub_prep g o1 o2 F G a b w : prep g o1 F a -> prep g o2 G b -> ga_sub a b = Ok w ->
  prep g (goff w) (fun ix => F ix - G ix)%R w /\ off_eq o1 (goff w) /\ off_eq o2 (goff w).
Proof.
  intros H1 H2 E. pose proof (ga_op2_ok _ _ _ E) as (_ & _ & O1 & O2).
  assert (P1 : prep g (goff w) F a) by (destruct H1 as (A & B & C & D); split; auto).
  assert (P2 : prep g (goff w) G b) by (destruct H2 as (A & B & C & D); split; auto).
  destruct (prep_op2 Rminus P1 P2) as (w' & E' & H). unfold ga_sub in E. rewrite E' in E. injection E as <-.
  split; auto. split; [eapply off_eq_trans; [apply off_eq_sym; apply H1 | auto] | eapply off_eq_trans; [apply off_eq_sym; apply H2 | auto]].
Qed.

Lemma curl_3d_returns g v cx cy cz : gndim g = 3%nat -> periodic_vec g v -> curl_3d v = Ok (cx, cy, cz) ->
  prep g (goff cx) (fun ix => fdF g 1 (vval v 2) ix - fdF g 2 (vval v 1) ix)%R cx /\
  prep g (goff cy) (fun ix => fdF g 2 (vval v 0) ix - fdF g 0 (vval v 2) ix)%R cy /\
  prep g (goff cz) (fun ix => fdF g 0 (vval v 1) ix - fdF g 1 (vval v 0) ix)%R cz.
Proof.
  intros Hd Hv H. pose proof Hv as (HL & _). rewrite Hd in HL.
  destruct v as [|v0 [|v1 [|v2 [|? ?]]]]; try discriminate HL. set (v := [v0; v1; v2]) in *.
  unfold curl_3d, v in H. fold v in H.
  apply bind_Ok_inv in H. destruct H as (g' & Eg & H). destruct (negb (gndim g' =? 3)%nat); [discriminate|].
  apply bind_Ok_inv in H. destruct H as (a1 & E1 & H). apply bind_Ok_inv in H. destruct H as (b1 & F1 & H).
  apply bind_Ok_inv in H. destruct H as (x & Ex & H).
  apply bind_Ok_inv in H. destruct H as (a2 & E2 & H). apply bind_Ok_inv in H. destruct H as (b2 & F2 & H).
  apply bind_Ok_inv in H. destruct H as (y & Ey & H).
  apply bind_Ok_inv in H. destruct H as (a3 & E3 & H). apply bind_Ok_inv in H. destruct H as (b3 & F3 & H).
  apply bind_Ok_inv in H. destruct H as (z & Ez & H). injection H as <- <- <-.
  assert (Hfd : forall i ax w, (i < 3)%nat -> (ax < 3)%nat -> forward_difference (nth i v dgv) ax = Ok w ->
     exists o, prep g o (fdF g ax (vval v i)) w).
  { intros i ax w Hi Hax E. destruct (@periodic_vec_nth g v i Hv ltac:(lia)) as (Hf & Hg).
    destruct (@forward_difference_spec_lem _ ax Hf) as (w' & E' & Hx); [rewrite Hg; lia|]. rewrite E' in E. injection E as <-.
    eexists. rewrite Hg in Hx. eapply prep_ext; [|exact Hx]. intros ix _. rewrite <- Hg. unfold fdF. rewrite Hg.
    rewrite !vval_nth by (simpl; lia). reflexivity. }
  destruct (Hfd 2%nat 1%nat a1 ltac:(lia) ltac:(lia) E1) as (o1 & P1). destruct (Hfd 1%nat 2%nat b1 ltac:(lia) ltac:(lia) F1) as (o1' & Q1).
  destruct (Hfd 0%nat 2%nat a2 ltac:(lia) ltac:(lia) E2) as (o2 & P2). destruct (Hfd 2%nat 0%nat b2 ltac:(lia) ltac:(lia) F2) as (o2' & Q2).
  destruct (Hfd 1%nat 0%nat a3 ltac:(lia) ltac:(lia) E3) as (o3 & P3). destruct (Hfd 0%nat 1%nat b3 ltac:(lia) ltac:(lia) F3) as (o3' & Q3).
  split; [|split].
  - apply (ga_sub_prep P1 Q1 Ex).
  - apply (ga_sub_prep P2 Q2 Ey).
  - apply (ga_sub_prep P3 Q3 Ez).
Qed.

Lemma curl_3d_off_len g v cx cy cz : gndim g = 3%nat -> periodic_vec g v -> curl_3d v = Ok (cx, cy, cz) ->
  length (goff cx) = 3%nat /\ length (goff cy) = 3%nat /\ length (goff cz) = 3%nat.
Proof.
  intros Hd Hv H. pose proof Hv as (HL & _). rewrite Hd in HL.
  destruct v as [|v0 [|v1 [|v2 [|? ?]]]]; try discriminate HL. set (v := [v0; v1; v2]) in *.
  unfold curl_3d, v in H. fold v in H.
  apply bind_Ok_inv in H. destruct H as (g' & Eg & H). destruct (negb (gndim g' =? 3)%nat); [discriminate|].
  apply bind_Ok_inv in H. destruct H as (a1 & E1 & H). apply bind_Ok_inv in H. destruct H as (b1 & F1 & H).
  apply bind_Ok_inv in H. destruct H as (x & Ex & H).
  apply bind_Ok_inv in H. destruct H as (a2 & E2 & H). apply bind_Ok_inv in H. destruct H as (b2 & F2 & H).
  apply bind_Ok_inv in H. destruct H as (y & Ey & H).
  apply bind_Ok_inv in H. destruct H as (a3 & E3 & H). apply bind_Ok_inv in H. destruct H as (b3 & F3 & H).
  apply bind_Ok_inv in H. destruct H as (z & Ez & H). injection H as <- <- <-.
  assert (Hfd : forall i ax w, (i < 3)%nat -> (ax < 3)%nat -> forward_difference (nth i v dgv) ax = Ok w ->
     length (goff w) = 3%nat).
  { intros i ax w Hi Hax E. destruct (@periodic_vec_nth g v i Hv ltac:(lia)) as (Hf & Hg).
    destruct (@forward_difference_spec_lem _ ax Hf) as (w' & E' & (_ & Hx & _)); [rewrite Hg; lia|]. rewrite E' in E. injection E as <-.
    rewrite (off_eq_length Hx), offs_length. destruct Hf as ((_ & _ & Hl) & _). rewrite Hl, Hg, Hd. reflexivity. }
  apply ga_op2_ok in Ex. apply ga_op2_ok in Ey. apply ga_op2_ok in Ez.
  destruct Ex as (_ & _ & X & _). destruct Ey as (_ & _ & Y & _). destruct Ez as (_ & _ & Z0 & _).
  rewrite <- (off_eq_length X), <- (off_eq_length Y), <- (off_eq_length Z0).
  split; [apply (Hfd 2%nat 1%nat); auto | split; [apply (Hfd 0%nat 2%nat); auto | apply (Hfd 1%nat 0%nat); auto]].
Qed.

(* @prop C17 The (forward-difference) divergence of curl_3d(v) is zero everywhere, for every periodic v on which curl_3d returns. *)
Lemma div_of_curl_3d_lem : forall g v b cx cy cz, gndim g = 3%nat -> periodic_vec g v -> perbc g b ->
  curl_3d v = Ok (cx, cy, cz) ->
  exists dx dy dz, forward_difference (mkgv cx b) 0 = Ok dx /\ forward_difference (mkgv cy b) 1 = Ok dy /\
    forward_difference (mkgv cz b) 2 = Ok dz /\
    forall ix, inb (gshape g) ix -> (get (gdata dx) ix + get (gdata dy) ix + get (gdata dz) ix = 0)%R.
Proof.
  intros g v b cx cy cz Hd Hv Hb H.
  assert (Hw : wfg g) by (eapply periodic_vec_wfg; [|eauto]; lia).
  destruct (curl_3d_returns Hd Hv H) as (Px & Py & Pz).
  destruct (curl_3d_off_len Hd Hv H) as (Lx & Ly & Lz).
  assert (HP : forall i, (i < 3)%nat -> periodic (gshape g) (vval v i)) by (intros i Hi; eapply periodic_vval; eauto; lia).
  assert (HQ : forall F G, periodic (gshape g) F -> periodic (gshape g) G -> periodic (gshape g) (fun ix => F ix - G ix)%R).
  { intros F G HF HG ix HL. rewrite HF, HG by auto. reflexivity. }
  destruct (@fd_of_prep g _ _ cx b 0 Px Hw (HQ _ _ (periodic_fdF g 1 (HP 2%nat ltac:(lia))) (periodic_fdF g 2 (HP 1%nat ltac:(lia)))) ltac:(lia) ltac:(lia) Hb) as (dx & Ex & (_ & _ & _ & Dx)).
  destruct (@fd_of_prep g _ _ cy b 1 Py Hw (HQ _ _ (periodic_fdF g 2 (HP 0%nat ltac:(lia))) (periodic_fdF g 0 (HP 2%nat ltac:(lia)))) ltac:(lia) ltac:(lia) Hb) as (dy & Ey & (_ & _ & _ & Dy)).
  destruct (@fd_of_prep g _ _ cz b 2 Pz Hw (HQ _ _ (periodic_fdF g 0 (HP 1%nat ltac:(lia))) (periodic_fdF g 1 (HP 0%nat ltac:(lia)))) ltac:(lia) ltac:(lia) Hb) as (dz & Ez & (_ & _ & _ & Dz)).
  exists dx, dy, dz. repeat split; auto. intros ix Hi. rewrite Dx, Dy, Dz by auto.
  assert (Hsub : forall a F G jx, fdF g a (fun ix => F ix - G ix)%R jx = (fdF g a F jx - fdF g a G jx)%R)
    by (intros; unfold fdF, Rdiv; ring).
  rewrite !Hsub. rewrite (fdF_comm g 1 0), (fdF_comm g 2 0 (vval v 1)), (fdF_comm g 2 1). ring.
Qed.
(* @ex *)
Lemma div_of_curl_3d_ex_lem :
  let g := mkgrid [2%nat; 2%nat; 3%nat] [1%R; 2%R; 1%R] [(0%R, 2%R); (0%R, 4%R); (0%R, 3%R)] in
  let mk f o := mkgv (mkga (mkarr [2%nat; 2%nat; 3%nat] f) o g) (periodic_bc 3) in
  let v := [mk (fun ix => IZR (nth 1 ix 0 * nth 2 ix 0)%Z) [1%Q; (1 # 2)%Q; (1 # 2)%Q];
            mk (fun ix => IZR (nth 0 ix 0 + 2)%Z) [(1 # 2)%Q; 1%Q; (1 # 2)%Q];
            mk (fun ix => IZR (nth 1 ix 0 - nth 0 ix 0)%Z) [(1 # 2)%Q; (1 # 2)%Q; 1%Q]] in
  periodic_vec g v.
Proof. simpl. split; [reflexivity|]. repeat constructor; simpl; (lia || lra). Qed.

Lemma div_of_curl_3d_defined_ex_aux g o v : gndim g = 3%nat -> periodic_vec g v -> length o = 3%nat -> face_aligned o v ->
  exists c, curl_3d v = Ok c.
Proof.
  intros Hd Hv Ho Hf. pose proof Hv as (HL & _). rewrite Hd in HL.
  destruct v as [|v0 [|v1 [|v2 [|? ?]]]]; try discriminate HL. set (v := [v0; v1; v2]) in *.
  unfold curl_3d, v. fold v.
  rewrite (@consistent_grid_all g (map garray v)).
  2: simpl; lia.
  2:{ intros u Hu. apply in_map_iff in Hu. destruct Hu as (x & <- & Hx). destruct Hv as (_ & HF).
      rewrite Forall_forall in HF. apply HF; auto. }
  cbn [bind]. rewrite Hd. cbn [Nat.eqb negb].
  assert (Hfd : forall i ax, (i < 3)%nat -> (ax < 3)%nat ->
     exists w, forward_difference (nth i v dgv) ax = Ok w /\ prep g (offs ax (1 # 2) (offs i (1 # 2) o)) (fdF g ax (vval v i)) w).
  { intros i ax Hi Hax. destruct (@periodic_vec_nth g v i Hv ltac:(lia)) as (Hfi & Hg).
    destruct (@forward_difference_spec_lem _ ax Hfi) as (w' & E' & Hx); [rewrite Hg; lia|].
    exists w'; split; auto. rewrite Hg in Hx.
    assert (Hoi : off_eq (goff (garray (nth i v dgv))) (offs i (1 # 2) o)).
    { apply (Hf i). apply nth_error_nth'. unfold v; simpl; lia. }
    eapply prep_off; [apply off_eq_offs; [exact Hoi | reflexivity]|].
    eapply prep_ext; [|exact Hx]. intros ix _. unfold fdF.
    rewrite !vval_nth by (simpl; lia). reflexivity. }
  destruct (Hfd 2%nat 1%nat) as (a1 & E1 & P1); [lia | lia |]. change (nth 2 v dgv) with v2 in E1. rewrite E1. cbn [bind].
  destruct (Hfd 1%nat 2%nat) as (b1 & F1 & Q1); [lia | lia |]. change (nth 1 v dgv) with v1 in F1. rewrite F1. cbn [bind].
  destruct (prep_op2 Rminus P1 (prep_off (offs_comm _ _ _ _ _) Q1)) as (x & Ex & _). unfold ga_sub at 1. rewrite Ex. cbn [bind].
  destruct (Hfd 0%nat 2%nat) as (a2 & E2 & P2); [lia | lia |]. change (nth 0 v dgv) with v0 in E2. rewrite E2. cbn [bind].
  destruct (Hfd 2%nat 0%nat) as (b2 & F2 & Q2); [lia | lia |]. change (nth 2 v dgv) with v2 in F2. rewrite F2. cbn [bind].
  destruct (prep_op2 Rminus P2 (prep_off (offs_comm _ _ _ _ _) Q2)) as (y & Ey & _). unfold ga_sub at 1. rewrite Ey. cbn [bind].
  destruct (Hfd 1%nat 0%nat) as (a3 & E3 & P3); [lia | lia |]. change (nth 1 v dgv) with v1 in E3. rewrite E3. cbn [bind].
  destruct (Hfd 0%nat 1%nat) as (b3 & F3 & Q3); [lia | lia |]. change (nth 0 v dgv) with v0 in F3. rewrite F3. cbn [bind].
  destruct (prep_op2 Rminus P3 (prep_off (offs_comm _ _ _ _ _) Q3)) as (z & Ez & _). unfold ga_sub. rewrite Ez. cbn [bind].
  eexists; reflexivity.
Qed.

(* @prop C17 curl_3d is defined on every face-aligned (staggered) periodic velocity. *)
Lemma curl_3d_defined_lem : forall g o v, gndim g = 3%nat -> periodic_vec g v -> length o = 3%nat -> face_aligned o v ->
  exists c, curl_3d v = Ok c.
Proof. intros; eapply div_of_curl_3d_defined_ex_aux; eauto. Qed.
(* @ex *)
Lemma curl_3d_defined_ex_lem :
  let g := mkgrid [2%nat; 2%nat; 3%nat] [1%R; 2%R; 1%R] [(0%R, 2%R); (0%R, 4%R); (0%R, 3%R)] in
  let mk f o := mkgv (mkga (mkarr [2%nat; 2%nat; 3%nat] f) o g) (periodic_bc 3) in
  let v := [mk (fun ix => IZR (nth 1 ix 0 * nth 2 ix 0)%Z) [1%Q; (1 # 2)%Q; (1 # 2)%Q];
            mk (fun ix => IZR (nth 0 ix 0 + 2)%Z) [(1 # 2)%Q; 1%Q; (1 # 2)%Q];
            mk (fun ix => IZR (nth 1 ix 0 - nth 0 ix 0)%Z) [(1 # 2)%Q; (1 # 2)%Q; 1%Q]] in
  periodic_vec g v /\ face_aligned [(1 # 2)%Q; (1 # 2)%Q; (1 # 2)%Q] v.
Proof.
  simpl. split; [split; [reflexivity|]; repeat constructor; simpl; (lia || lra)|].
  intros [|[|[|[|i]]]] u H; simpl in H; try discriminate; injection H as <-; simpl; repeat constructor.
Qed.

(* @prop C17 curl_3d of the forward gradient of any periodic variable is zero everywhere. *)
Lemma curl_3d_of_gradient_lem : forall u b, periodic_field u -> gndim (ggrid (garray u)) = 3%nat -> perbc (ggrid (garray u)) b ->
  exists gs cx cy cz, forward_gradient u = Ok gs /\ curl_3d (map (fun w => mkgv w b) gs) = Ok (cx, cy, cz) /\
    forall ix, inb (gshape (ggrid (garray u))) ix ->
      get (gdata cx) ix = 0%R /\ get (gdata cy) ix = 0%R /\ get (gdata cz) ix = 0%R.
Proof.
  intros u b Hu Hd Hb. destruct (grad_prep Hu) as (gs & Eg & HL & Hgs).
  set (g := ggrid (garray u)) in *. set (v := map (fun w => mkgv w b) gs).
  assert (HF : periodic (gshape g) (pval (garray u))) by (apply pf_per; auto).
  assert (Hw : wfg g) by apply Hu. assert (Ho : length (goff (garray u)) = gndim g) by apply Hu.
  assert (Hnth : forall i, (i < 3)%nat -> nth_error v i = Some (mkgv (nth i gs dga) b)).
  { intros i Hi. unfold v. rewrite nth_error_map. rewrite (nth_error_nth' gs dga) by lia. reflexivity. }
  assert (Hval : forall i ix, (i < 3)%nat -> length ix = gndim g -> vval v i ix = fdF g i (pval (garray u)) ix).
  { intros i ix Hi Hix. unfold vval. rewrite Hnth by auto. simpl.
    eapply pval_prep; [apply periodic_fdF; exact HF | apply Hgs; lia | apply Hw | auto]. }
  assert (Hv : periodic_vec g v).
  { split; [unfold v; rewrite map_length; auto|]. apply Forall_forall. intros x Hx.
    apply (In_nth _ _ dgv) in Hx. destruct Hx as (i & Hi & <-). unfold v in Hi. rewrite map_length, HL, Hd in Hi.
    rewrite (nth_error_nth v i dgv (Hnth i Hi)). destruct (Hgs i dga ltac:(lia)) as (A & B & C & D). simpl. split; auto.
    split; simpl; [|rewrite A; auto]. repeat split; rewrite ?A; auto; try apply Hw.
    rewrite (off_eq_length B), offs_length. exact Ho. }
  assert (Hf : face_aligned (goff (garray u)) v).
  { intros i x Hx. assert (Hi : (i < 3)%nat).
    { assert (i < length v)%nat by (apply nth_error_Some; congruence). unfold v in H. rewrite map_length in H. lia. }
    rewrite (Hnth i Hi) in Hx. injection Hx as <-. simpl. apply (Hgs i dga). lia. }
  destruct (@curl_3d_defined_lem g (goff (garray u)) v Hd Hv ltac:(lia) Hf) as (((cx & cy) & cz) & Ec).
  exists gs, cx, cy, cz. split; auto. split; auto.
  destruct (curl_3d_returns Hd Hv Ec) as ((_ & _ & _ & Dx) & (_ & _ & _ & Dy) & (_ & _ & _ & Dz)).
  intros ix Hi. pose proof (inb_length _ _ Hi) as HLi. fold (gndim g) in HLi.
  assert (Hfd : forall a i, (i < 3)%nat -> fdF g a (vval v i) ix = fdF g a (fdF g i (pval (garray u))) ix).
  { intros a i Hi3. unfold fdF at 1 2. rewrite !Hval by (rewrite ?shiftix_length; auto). reflexivity. }
  rewrite Dx, Dy, Dz by auto. rewrite !Hfd by lia.
  rewrite (fdF_comm g 1 2), (fdF_comm g 2 0), (fdF_comm g 0 1). repeat split; ring.
Qed.
(* @ex *)
Lemma curl_3d_of_gradient_ex_lem :
  let g := mkgrid [2%nat; 2%nat; 3%nat] [1%R; 2%R; 1%R] [(0%R, 2%R); (0%R, 4%R); (0%R, 3%R)] in
  periodic_field (mkgv (mkga (mkarr [2%nat; 2%nat; 3%nat] (fun ix => IZR (nth 1 ix 0 * nth 2 ix 0)%Z)) [1%Q; (1 # 2)%Q; (1 # 2)%Q] g) (periodic_bc 3)).
Proof. simpl. repeat split; repeat constructor; (lia || lra). Qed.
