(** * C63: the slicing encoders for every time axis *)
From Verif Require Import Prelude NdArr Grids_model Spec SpecRollout ArrayUtils_model PRep ArrayUtilsProps Networks_model NetworksProps Rollout_model EncoderProps.
Set Implicit Arguments.
Local Open Scope Z_scope.

(* @prop C63 slice_last_n_state_encoder for every time axis (negative ones included) and n >= 1, on every collection of arrays of one rank having that axis: whatever the time axis is, the last min(n, T) entries along the first axis (of length T) are kept, in order, and then the axis named as time axis is moved to the end. *)
Lemma slice_last_n_any_axis_lem : forall (A : Type) n time_axis (x : list (arr A)), 1 <= n -> x <> [] -> (forall a b, In a x -> In b x -> ndim a = ndim b) -> (forall a, In a x -> exists ax, denotes time_axis (ndim a) ax) ->
  exists y, slice_last_n_state_encoder n time_axis x = Ok y /\
    Forall2 (fun a p => forall ax, denotes time_axis (ndim a) ax ->
      let T := nth 0 (shp a) 0%nat in let m := Nat.min (Z.to_nat n) T in let s := m :: tl (shp a) in
      shp p = without ax s ++ [nth ax s 0%nat] /\
      forall ix, inb s ix -> get p (without ax ix ++ [nth ax ix 0]) = get a (Z.of_nat (T - m) + hd 0 ix :: tl ix)) x y.
Proof.
  intros A n t x Hn Hne Hs Hv. unfold slice_last_n_state_encoder.
  assert (Hd : forall a, In a x -> (0 < ndim a)%nat) by (intros a Ha; destruct (Hv a Ha) as (ax & D); unfold denotes in D; lia).
  destruct (@slice_last_n_leaf A n x ltac:(lia) Hne Hs Hd) as (y & Ey & Hy). rewrite Ey. cbn [bind].
  assert (Hxy : forall p, In p y -> exists a, In a x /\ ndim p = ndim a).
  { intros p Hp. destruct (In_nth_error _ _ Hp) as (j & Hj). destruct (nth_error x j) as [a|] eqn:Ea; [|apply nth_error_None in Ea; rewrite (F2_length Hy) in Ea; apply nth_error_None in Ea; congruence].
    exists a. split; [exact (nth_error_In _ _ Ea)|]. destruct (@F2_nth _ _ _ _ _ _ _ _ Hy Ea Hj) as (S & _). cbv zeta in S. unfold ndim. rewrite S. specialize (Hd a (nth_error_In _ _ Ea)). unfold ndim in Hd. destruct (shp a); [cbn in Hd; lia | reflexivity]. }
  destruct (@mapM_F2 _ _ (move_to_last t) (fun p q => forall ax, denotes t (ndim p) ax -> shp q = without ax (shp p) ++ [nth ax (shp p) 0%nat] /\ forall ix, inb (shp p) ix -> get q (without ax ix ++ [nth ax ix 0]) = get p ix) y) as (z & Ez & Hz).
  { intros p Hp. destruct (Hxy p Hp) as (a & Ha & Ea). destruct (Hv a Ha) as (ax & D). rewrite <- Ea in D. unfold move_to_last. rewrite (denotes_norm D). cbn [bind]. eexists. split; [reflexivity|].
    intros ax' D'. pose proof (denotes_unique D D') as <-. cbn [shp get]. split; [reflexivity|]. intros ix Hix. rewrite last_last, removelast_app_one. f_equal. apply insert_without. rewrite (inb_length _ _ Hix). exact (proj1 D). }
  exists z. split; [exact Ez|]. apply Forall2_of_nth; [rewrite (F2_length Hy); exact (F2_length Hz)|]. intros j a q Ha Hq ax D. destruct (nth_error y j) as [p|] eqn:Ep; [|apply nth_error_None in Ep; rewrite (F2_length Hz) in Ep; apply nth_error_None in Ep; congruence].
  destruct (@F2_nth _ _ _ _ _ _ _ _ Hy Ha Ep) as (S1 & V1). pose proof (@F2_nth _ _ _ _ _ _ _ _ Hz Ep Hq) as K. cbv zeta in *. destruct (Z.eqb_spec n 0) as [->|_] in S1; [lia|]. destruct (Z.eqb_spec n 0) as [->|_] in V1; [lia|].
  assert (Dp : denotes t (ndim p) ax). { replace (ndim p) with (ndim a); [exact D|]. unfold ndim. rewrite S1. specialize (Hd a (nth_error_In _ _ Ha)). unfold ndim in Hd. destruct (shp a); [cbn in Hd; lia | reflexivity]. }
  destruct (K ax Dp) as [S2 V2]. rewrite S1 in S2, V2. split; [exact S2|]. intros ix Hix. rewrite (V2 ix Hix). destruct ix as [|i ix]; [destruct Hix|]. cbn [inb] in Hix. cbn [hd tl].
  replace i with (Z.of_nat (Z.to_nat i)) at 1 by lia. rewrite V1. do 2 f_equal. lia.
Qed.
(* @ex *)
Lemma slice_last_n_any_axis_ex_lem : denotes 1 (ndim enc_a) 1 /\ match slice_last_n_state_encoder 1 1 [enc_a] with Ok [p] => shp p = [1%nat; 3%nat] /\ get p [0; 2] = 12 | _ => False end.
Proof. split; [unfold denotes; cbn; lia | vm_compute; auto]. Qed.

(* @prop C63 stack_last_n_state_encoder of one array, for every time axis and n >= 1: the same slices along the first axis with the named axis moved to the end. *)
Lemma stack_last_n_one_array_lem : forall (A : Type) n time_axis (a : arr A) ax, 1 <= n -> denotes time_axis (ndim a) ax ->
  let T := nth 0 (shp a) 0%nat in let m := Nat.min (Z.to_nat n) T in let s := m :: tl (shp a) in
  exists q, stack_last_n_state_encoder n time_axis [a] = Ok q /\ shp q = without ax s ++ [nth ax s 0%nat] /\
    forall ix, inb s ix -> get q (without ax ix ++ [nth ax ix 0]) = get a (Z.of_nat (T - m) + hd 0 ix :: tl ix).
Proof.
  intros A n t a ax Hn D T m s. destruct (@slice_last_n_any_axis_lem A n t [a] Hn) as (y & Ey & Hy).
  - discriminate.
  - intros b c [<- |[]] [<- |[]]. reflexivity.
  - intros b [<- |[]]. eauto.
  - inversion Hy as [|? p ? l Hp Hl]; subst. inversion Hl; subst. specialize (Hp ax D). cbv zeta in Hp. fold T in Hp. fold m in Hp. fold s in Hp. destruct Hp as [S V].
    unfold slice_last_n_state_encoder in Ey. unfold stack_last_n_state_encoder. destruct (slice_along_axis [a] 0 (PySlice (Some (- n)) None 1) true) as [w|e]; [|discriminate Ey]. cbn [bind] in *. rewrite Ey. cbn [bind map].
    assert (Ec : concatenate [p] (-1) = Ok (mkarr (shp p) (concat_lines (length (without ax s)) [p] p))).
    { unfold concatenate. unfold ndim at 1. rewrite S, (denotes_norm (last_axis (without ax s) _)). cbn [bind].
      match goal with |- context [forallb ?f [p]] => assert (Fb : forallb f [p] = true); [|rewrite Fb] end.
      - apply forallb_forall. intros b [<- |[]]. unfold ndim. rewrite S, Nat.eqb_refl. cbn [andb]. apply forallb_forall. intros j _. rewrite Nat.eqb_refl. apply orb_true_r.
      - f_equal. f_equal. cbn [map fold_right]. rewrite S, nth_app_last, Nat.add_0_r, upd_app. reflexivity. }
    unfold concat_along_axis. cbn [map forallb length Nat.eqb andb seq mapM leaf nth_error bind]. rewrite Ec. cbn [bind leaf nth_error]. eexists. split; [reflexivity|]. cbn [shp get]. split; [exact S|].
    intros ix Hix. rewrite <- (V ix Hix). cbn [concat_lines]. destruct (_ <? _) eqn:E; [reflexivity|]. exfalso. apply Z.ltb_ge in E. rewrite S, nth_app_last in E.
    assert (L : length (without ax s) = length (without ax ix)) by (unfold without; rewrite !app_length, !firstn_length, !skipn_length, (inb_length _ _ Hix); reflexivity).
    rewrite L, nth_app_last in E. assert (Hax : (ax < length s)%nat). { unfold s. destruct D as [D _]. unfold ndim in D. destruct (shp a); [cbn in D; lia | exact D]. }
    pose proof (@NdArr.inb_nth s ix ax Hix Hax). lia.
Qed.
(* @ex *)
Lemma stack_last_n_one_array_ex_lem : denotes 1 (ndim enc_a) 1 /\ match stack_last_n_state_encoder 1 1 [enc_a] with Ok p => shp p = [1%nat; 3%nat] /\ get p [0; 2] = 12 | _ => False end.
Proof. split; [unfold denotes; cbn; lia | vm_compute; auto]. Qed.
