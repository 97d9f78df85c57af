(** * Every spectral time stepper respects linear relations between two equations *)
From Verif Require Import Prelude NdArr Cplx Grids_model TimeStep_model Spectral_model SpectralStep_model TimeStepProps SpecStep.
Set Implicit Arguments.

Lemma res_bind {A B C D} (Rl : A -> B -> Prop) (Rl' : C -> D -> Prop) r s f h : res_rel Rl r s -> (forall a b, Rl a b -> res_rel Rl' (f a) (h b)) -> res_rel Rl' (bind r f) (bind s h).
Proof. destruct r, s; cbn; intros H1 H2; try contradiction; [apply H2; exact H1 | exact H1]. Qed.
Lemma res_fold {A B C} (Rl : A -> B -> Prop) (f : A -> C -> result A) h l : (forall a b x, In x l -> Rl a b -> res_rel Rl (f a x) (h b x)) -> forall a b, Rl a b -> res_rel Rl (foldM f a l) (foldM h b l).
Proof.
  induction l as [|x l IH]; intros H a b Hab; [exact Hab|]. cbn [foldM]. apply (@res_bind _ _ _ _ Rl); [apply H; [left; reflexivity | exact Hab]|]. intros a' b' H'. apply IH; [|exact H']. intros. apply H; [right; assumption | assumption].
Qed.

Section Rel.
Variables (X Y : Type) (Rl : vec X -> vec Y -> Prop).
Hypothesis (R0 : Rl vzero vzero) (Radd : forall u v u' v', Rl u u' -> Rl v v' -> Rl (vadd u v) (vadd u' v')) (Rscal : forall c u u', Rl u u' -> Rl (vscal c u) (vscal c u')).
Definition orel (o : option (vec X)) (o' : option (vec Y)) : Prop := match o, o' with Some a, Some b => Rl a b | None, None => True | _, _ => False end.
Lemma wsum_rel row ks ks' n : Forall2 orel ks ks' -> res_rel Rl (wsum row ks n) (wsum row ks' n).
Proof.
  intros Hk. unfold wsum. apply (@res_fold _ _ _ Rl); [|exact R0]. intros a b j _ Hab. destruct (nth_error row j) as [c|]; [|reflexivity]. destruct (nz c); [|exact Hab].
  assert (H : match nth_error ks j, nth_error ks' j with Some o, Some o' => orel o o' | None, None => True | _, _ => False end).
  { revert j. induction Hk; intros [|j]; cbn; auto. apply IHHk. }
  destruct (nth_error ks j) as [[k|]|], (nth_error ks' j) as [[k'|]|]; cbn in H; try contradiction; try reflexivity. cbn. apply Radd; [exact Hab | apply Rscal; exact H].
Qed.
Lemma F2_upd {A B} (P : A -> B -> Prop) l l' i a b : Forall2 P l l' -> P a b -> Forall2 P (upd i a l) (upd i b l').
Proof. intros H Hab. revert i. induction H as [|x y l l' Hxy Hl IH]; intros [|i]; cbn; constructor; auto. Qed.
Lemma F2_repeat {A B} (P : A -> B -> Prop) a b n : P a b -> Forall2 P (repeat a n) (repeat b n).
Proof. intros H. induction n; cbn; constructor; auto. Qed.
Variables (F : vec X -> vec X) (F' : vec Y -> vec Y) (G : vec X -> vec X) (G' : vec Y -> vec Y) (Ginv : vec X -> R -> vec X) (Ginv' : vec Y -> R -> vec Y).
Hypothesis (RF : forall u u', Rl u u' -> Rl (F u) (F' u')) (RG : forall u u', Rl u u' -> Rl (G u) (G' u')) (RGinv : forall u u' h, Rl u u' -> Rl (Ginv u h) (Ginv' u' h)).
Lemma step_rel k dt u u' : Rl u u' -> res_rel Rl (spectral_step k F G Ginv dt u) (spectral_step k F' G' Ginv' dt u').
Proof.
  intros Hu. destruct k as [| |al be ga|t]; cbn [spectral_step].
  - cbn. unfold backward_forward_euler. auto.
  - cbn. unfold crank_nicolson_rk2. cbv zeta. assert (H1 : Rl (Ginv (vadd (vadd u (vscal (1 / 2 * dt) (G u))) (vscal dt (F u))) (1 / 2 * dt)) (Ginv' (vadd (vadd u' (vscal (1 / 2 * dt) (G' u'))) (vscal dt (F' u'))) (1 / 2 * dt))) by auto 10. auto 12.
  - unfold low_storage_rk_cn. destruct (negb _ && negb _)%bool; [reflexivity|].
    apply (@res_bind _ _ _ _ (fun a b => Rl (fst a) (fst b) /\ Rl (snd a) (snd b))); [|intros a b [_ H]; exact H].
    apply (@res_fold _ _ _ (fun a b => Rl (fst a) (fst b) /\ Rl (snd a) (snd b))); [|split; [exact R0 | exact Hu]].
    intros [h v] [h' v'] j _ [H1 H2]. cbn [fst snd] in H1, H2. destruct (nth_error be j), (nth_error al (j + 1)), (nth_error al j), (nth_error ga j); try reflexivity. cbn. split; auto 10.
  - apply (@res_bind _ _ _ _ (fun a b => Rl (fst (fst a)) (fst (fst b)))); [|intros a b H; exact H].
    unfold imex_runge_kutta. destruct (length (ib_ex t)) as [|m] eqn:El; [reflexivity|].
    set (Q := fun (a : list (option (vec X)) * list (option (vec X)) * list nat * list nat) (b : list (option (vec Y)) * list (option (vec Y)) * list nat * list nat) =>
      Forall2 orel (fst (fst (fst a))) (fst (fst (fst b))) /\ Forall2 orel (snd (fst (fst a))) (snd (fst (fst b)))).
    apply (@res_bind _ _ _ _ Q).
    + apply (@res_fold _ _ _ Q).
      * intros [[[f gg] lf] lg] [[[f' gg'] lf'] lg'] i _ [H1 H2]. cbn [fst snd] in H1, H2.
        destruct (nth_error (ia_ex t) (i - 1)) as [rx|]; [|reflexivity]. destruct (nth_error (ia_im t) (i - 1)) as [ri|]; [|reflexivity].
        apply (@res_bind _ _ _ _ Rl); [apply wsum_rel; exact H1|]. intros sex sex' Hs1. apply (@res_bind _ _ _ _ Rl); [apply wsum_rel; exact H2|]. intros sim sim' Hs2.
        destruct (nth_error ri i) as [aii|]; [|reflexivity]. cbv zeta. destruct (stage_needed (ia_ex t) (ib_ex t) i (S m)) as [nf|]; [|reflexivity]. cbn [bind]. destruct (stage_needed (ia_im t) (ib_im t) i (S m)) as [ng|]; [|reflexivity]. cbn [bind].
        assert (HY : Rl (Ginv (vadd (vadd u (vscal dt sex)) (vscal dt sim)) (dt * aii)) (Ginv' (vadd (vadd u' (vscal dt sex')) (vscal dt sim')) (dt * aii))) by auto 10.
        cbn. split; cbn [fst snd]; [destruct nf | destruct ng]; try assumption; apply F2_upd; try assumption; cbn; auto.
      * split; cbn [fst snd]; apply F2_upd; try (apply F2_repeat; exact I); cbn; auto.
    + intros [[[f gg] lf] lg] [[[f' gg'] lf'] lg'] [H1 H2]. cbn [fst snd] in H1, H2.
      apply (@res_bind _ _ _ _ Rl); [apply wsum_rel; exact H1|]. intros sex sex' Hs1. apply (@res_bind _ _ _ _ Rl); [apply wsum_rel; exact H2|]. intros sim sim' Hs2. cbn. auto 10.
Qed.
Lemma steps_rel k dt n u u' : Rl u u' -> res_rel Rl (spectral_steps k F G Ginv dt n u) (spectral_steps k F' G' Ginv' dt n u').
Proof.
  intros Hu. induction n as [|n IH]; [exact Hu|]. cbn [spectral_steps]. apply (@res_bind _ _ _ _ Rl); [exact IH|]. intros a b Hab. apply step_rel. exact Hab.
Qed.
End Rel.
