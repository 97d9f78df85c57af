(** * C37: steady states of the spectral time steppers *)
From Verif Require Import Prelude NdArr Cplx TimeStep_model TimeStepProps SpectralStep_model SpecStep SpecKS.
Set Implicit Arguments.
Local Open Scope R_scope.

(* @prop C37 Steady states are kept exactly: if the explicit and the implicit terms cancel at u, and implicit_solve undoes u - h * implicit_terms(u) for every h >= 0, then every number of steps of backward_forward_euler, crank_nicolson_rk2, crank_nicolson_rk3 and imex_rk_sil3, with every dt >= 0, returns u. *)
Lemma steady_states_kept_lem : forall X (F G : vec X -> vec X) (Ginv : vec X -> R -> vec X) (dt : R) (u : vec X) (k : spectral_scheme) (steps : nat),
  0 <= dt -> (forall x, F u x + G u x = 0) -> (forall h, 0 <= h -> Ginv (fun x => u x - h * G u x) h = u) ->
  In k [BackwardForwardEuler; CrankNicolsonRK2; rk3_scheme; Imex sil3_tableau] -> spectral_steps k F G Ginv dt steps u = Ok u.
Proof.
  intros X F G Ginv dt u k steps Hdt HF HG Hk.
  assert (EF : F u = vscal (-1) (G u)). { apply vec_ext. intros x. unfold vscal. specialize (HF x). lra. }
  assert (HS : forall y h, 0 <= h -> (forall x, y x = u x - h * G u x) -> Ginv y h = u). { intros y h Hh E. transitivity (Ginv (fun x => u x - h * G u x) h); [|apply HG; exact Hh]. f_equal. apply vec_ext. exact E. }
  assert (H1 : spectral_step k F G Ginv dt u = Ok u); [|induction steps as [|steps IH]; [reflexivity|]; cbn [spectral_steps]; rewrite IH; exact H1].
  cbn [In] in Hk. destruct Hk as [<- | [<- | [<- | [<- | []]]]]; cbn [spectral_step].
  - f_equal. apply HS; [lra|]. intros x. unfold vadd, vscal. rewrite EF. unfold vscal. ring.
  - f_equal. unfold crank_nicolson_rk2. rewrite (HS (vadd (vadd u (vscal (1 / 2 * dt) (G u))) (vscal dt (F u)))); [|lra|intros x; unfold vadd, vscal; rewrite EF; unfold vscal; field].
    apply HS; [lra|]. intros x. unfold vadd, vscal. rewrite EF. unfold vscal. field.
  - unfold rk3_scheme, low_storage_rk_cn. cbn -[Rdiv Rmult Rminus].
    match goal with |- context [Ginv (vadd (vadd u ?a) ?b) ?h] => assert (E : Ginv (vadd (vadd u a) b) h = u) end; [apply HS; [lra|]; intros x; unfold vadd, vscal, vzero; rewrite EF; unfold vscal; field|]. rewrite E. clear E.
    match goal with |- context [Ginv (vadd (vadd u ?a) ?b) ?h] => assert (E : Ginv (vadd (vadd u a) b) h = u) end; [apply HS; [lra|]; intros x; unfold vadd, vscal, vzero; rewrite EF; unfold vscal; field|]. rewrite E. clear E.
    f_equal. apply HS; [lra|]. intros x. unfold vadd, vscal, vzero. rewrite EF. unfold vscal. field.
  - assert (Ht : imex_butcher_tableau (ia_ex sil3_tableau) (ia_im sil3_tableau) (ib_ex sil3_tableau) (ib_im sil3_tableau) = Ok sil3_tableau) by reflexivity.
    destruct (@imex_full_sum_lem X _ _ _ _ _ F G Ginv dt u Ht) as ((Y & HY) & Hall).
    + intros [|[|[|i]]] Hi; cbn in *; lia.
    + intros [|[|[|i]]] Hi; cbn in *; lia.
    + destruct (Hall Y HY) as (lf & lg & HE & _). rewrite HE. clear HE Hall. cbn [bind fst]. f_equal.
      destruct HY as [E0 HY]. assert (H1 := HY 1%nat ltac:(cbn; lia)). assert (H2 := HY 2%nat ltac:(cbn; lia)). assert (H3 := HY 3%nat ltac:(cbn; lia)). clear HY.
      cbn -[Rdiv Rmult Rplus Ropp] in H1, H2, H3. rewrite E0 in *.
      assert (E1 : Y 1%nat = u) by (rewrite H1; apply HS; [lra|]; intros x; unfold vadd, vscal; rewrite EF; unfold vscal; field). rewrite E1 in *.
      assert (E2 : Y 2%nat = u) by (rewrite H2; apply HS; [lra|]; intros x; unfold vadd, vscal; rewrite EF; unfold vscal; field). rewrite E2 in *.
      assert (E3 : Y 3%nat = u) by (rewrite H3; apply HS; [lra|]; intros x; unfold vadd, vscal; rewrite EF; unfold vscal; field).
      apply vec_ext; intros x. cbn -[Rdiv Rmult Rplus Ropp]. rewrite E0, E1, E2, E3. unfold vadd, vscal. rewrite EF. unfold vscal. field.
Qed.
(* @ex *)
Lemma steady_states_kept_ex_lem : let F := fun (_ : vec unit) (_ : unit) => 6 in let G := fun (v : vec unit) (x : unit) => - 2 * v x in let Ginv := fun (v : vec unit) h (x : unit) => v x / (1 + h * 2) in
  let u := fun _ : unit => 3 in (forall x, F u x + G u x = 0) /\ (forall h, 0 <= h -> Ginv (fun x => u x - h * G u x) h = u).
Proof. cbv zeta. split; [intros x; lra|]. intros h Hh. apply vec_ext. intros x. field. lra. Qed.
