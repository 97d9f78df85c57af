(** * C22: boundary conditions that the transform-based diffusion solver refuses *)
From Verif Require Import Prelude NdArr Grids_model LinAlg Cplx Boundaries_model FD_model WallBC FastDiag_model Laplacian_model ResizeProps LearnedInterpMoreProps Diffusion_model.
Set Implicit Arguments.
Local Open Scope Z_scope.

Lemma bc_trim_grid u w ax r : bc_trim u w ax = Ok r -> ggrid r = ggrid u.
Proof.
  unfold bc_trim. intros E. repeat match type of E with context [if ?c then _ else _] => destruct c | context [match ?c with _ => _ end] => destruct c end; try discriminate E;
    try (injection E as <-; reflexivity);
    match type of E with bind ?m _ = _ => destruct m; cbn [bind] in E; [injection E as <-; reflexivity | discriminate E] end.
Qed.
Lemma trim_padding_grid b u ax s r : trim_padding b u ax s = Ok r -> ggrid (fst r) = ggrid u.
Proof.
  unfold trim_padding. intros E. destruct (gshp u ax <=? ushape u ax)%nat; [|injection E as <-; reflexivity].
  assert (K : forall st, (if Qle_bool (offat u ax) 0 && (match s with RightSide => false | _ => true end)
                then let nt := neg_trim b u ax in let* u' := bc_trim u nt ax in Ok (u', nt) else Ok (u, 0%Z)) = Ok st -> ggrid (fst st) = ggrid u).
  { intros st. destruct (Qle_bool _ _ && _); [|intros H; injection H as <-; reflexivity]. cbn zeta. destruct (bc_trim u _ ax) as [u'|] eqn:Eu; cbn [bind]; intros H; [|discriminate H].
    injection H as <-. exact (bc_trim_grid _ _ _ Eu). }
  apply bind_Ok_inv in E. destruct E as ([u' nt] & Em & E).
  specialize (K _ Em). cbn [fst] in K. apply bind_Ok_inv in E. destruct E as (u2 & Em2 & E).
  injection E as <-. cbn [fst]. rewrite <- K. match type of Em2 with (if ?c then _ else _) = _ => destruct c end; [exact (bc_trim_grid _ _ _ Em2) | injection Em2 as <-; reflexivity].
Qed.
Lemma trim_boundary_grid b u r : trim_boundary b u = Ok r -> ggrid r = ggrid u.
Proof.
  unfold trim_boundary. generalize (seq 0 (gndim (ggrid u))) as l. intros l. revert u. induction l as [|a l IH]; intros u E; cbn [foldM] in E; [injection E as <-; reflexivity|].
  destruct (is_aligned b u a); cbn [bind] in E; [|discriminate E]. destruct (trim_padding b u a Both) as [up|] eqn:Et; cbn [bind] in E; [|discriminate E].
  rewrite (IH _ E). exact (trim_padding_grid _ _ _ _ Et).
Qed.

(* @prop C22 solve_fast_diag refuses inhomogeneous Neumann walls: on every grid, if some axis of some component has a Neumann side and a nonzero boundary value on either of its sides, the call never succeeds, whatever the data, the other boundary conditions, nu, dt and the implementation. *)
Lemma implicit_diffusion_rejects_flux_lem : forall tpu eigh imp (v : list gvar) (u : gvar) (nu dt : R) (axis : nat) (x : R),
  In u v -> (axis < gndim (ggrid (garray u)))%nat -> (fst (btype (gbc u) axis) = Neumann \/ snd (btype (gbc u) axis) = Neumann) ->
  (fst (bval (gbc u) axis) = Some x \/ snd (bval (gbc u) axis) = Some x) -> x <> 0%R -> ~ is_ok (diffusion_solve_fast_diag tpu eigh v nu dt imp).
Proof.
  intros tpu eigh imp v u nu dt axis x Hu Ha Ht Hv Hx (r & E). unfold diffusion_solve_fast_diag in E. revert E. apply (@mapM_not_ok _ _ _ v u Hu). intros y E.
  unfold diffusion_component in E. apply bind_Ok_inv in E. destruct E as (Ls & _ & E). apply bind_Ok_inv in E. destruct E as (op & _ & E).
  apply bind_Ok_inv in E. destruct E as (w & Ew & E). apply bind_Ok_inv in E. destruct E as (xt & Ex & _). apply trim_boundary_grid in Ew.
  unfold diffusion_rhs_transform in Ex. rewrite Ew in Ex. destruct (@foldM_each _ _ _ _ _ _ Ex axis) as (a' & r' & Er); [apply in_seq; lia|]. cbn beta in Er.
  assert (T : truthy (fst (bval (gbc u) axis)) || truthy (snd (bval (gbc u) axis)) = true).
  { assert (S : truthy (Some x) = true) by (unfold truthy; destruct (Req_EM_T x 0); [contradiction | reflexivity]). destruct Hv as [-> | ->]; rewrite S; [reflexivity | apply orb_true_r]. }
  apply bind_Ok_inv in Er. destruct Er as (d & E1 & E2). unfold diffusion_rhs_side in E1, E2. destruct Ht as [Ht|Ht]; [rewrite Ht in E1 | rewrite Ht in E2]; cbn [isDir isNeu] in *.
  - rewrite T in E1. discriminate E1.
  - rewrite T in E2. discriminate E2.
Qed.
(** A heated rod: flux 1 through the upper end. *)
Definition heated_rod : gvar := mkgv (mkga (mkarr [4%nat] (fun _ => 0%R)) [(1 # 2)%Q] (mkgrid [4%nat] [1%R] [(0%R, 4%R)])) (mkbc [(Neumann, Neumann)] [(Some 0%R, Some 1%R)] false).
(* @ex *)
Lemma implicit_diffusion_rejects_flux_ex_lem : (0 < gndim (ggrid (garray heated_rod)))%nat /\ btype (gbc heated_rod) 0 = (Neumann, Neumann) /\ bval (gbc heated_rod) 0 = (Some 0%R, Some 1%R).
Proof. split; [cbn; lia|]. split; reflexivity. Qed.
