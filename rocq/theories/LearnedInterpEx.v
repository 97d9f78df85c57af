(** * A concrete learned interpolation (examples for C71) *)
From Verif Require Import Prelude NdArr Grids_model Spec ArrayUtils_model ArrayUtilsProps PRep Networks_model Viscosities_model SkillProps Tiling_model SpecTile TilingProofs TilingProps Stencil_model SpecStencil StencilProofs StencilProps StencilLayerProps SpecVisc ViscosityProps SpecLInt LearnedInterp_model LearnedInterpBase LearnedInterpLayers LearnedInterpFuse LearnedInterpDict.
Set Implicit Arguments.
Local Open Scope R_scope.

Definition cramer (A : list (list R)) (b : list R) : result (list R) :=
  let e i j := nth j (nth i A []) 0 in let r i := nth i b 0 in
  let d := e 0%nat 0%nat * e 1%nat 1%nat - e 0%nat 1%nat * e 1%nat 0%nat in
  try_solver [[r 0%nat / e 0%nat 0%nat]; [(r 0%nat * e 1%nat 1%nat - e 0%nat 1%nat * r 1%nat) / d; (e 0%nat 0%nat * r 1%nat - r 0%nat * e 1%nat 0%nat) / d]] A b.
Lemma cramer_correct : correct_solver cramer. Proof. intros A b c. unfold cramer. apply try_solver_correct. Qed.
Lemma cramer_small : solves_small cramer.
Proof.
  intros A b c Hn Hrow Lc Hs Huniq. unfold cramer. destruct A as [|r0 [|r1 [|r2 A]]]; cbn [length] in *; [lia | | | lia].
  - assert (L0 : length r0 = 1%nat) by (apply Hrow; left; reflexivity). destruct r0 as [|a [|? ?]]; cbn in L0; try lia. destruct c as [|x [|? ?]]; cbn in Lc; try lia. destruct Hs as (Lb & Hs). destruct b as [|y [|? ?]]; cbn in Lb; try lia.
    pose proof (Hs 0%nat ltac:(cbn; lia)) as E. unfold rsum in E. cbn in E.
    apply try_solver_ok with (c := [y / a]); [left; reflexivity | intros row [<- | []]; reflexivity|]. split; [reflexivity|]. intros k Hk. cbn [length] in Hk. destruct k as [|k]; [|lia]. unfold rsum. cbn.
    destruct (Req_dec a 0) as [Ha|Ha]; [exfalso | field; exact Ha]. assert (X : [x + 1] = [x]).
    { apply Huniq; [reflexivity|]. split; [reflexivity|]. intros [|k] Hk'; cbn [length] in Hk'; [|lia]. unfold rsum. cbn. rewrite Ha in *. lra. }
    injection X as X. lra.
  - assert (L0 : length r0 = 2%nat) by (apply Hrow; left; reflexivity). assert (L1 : length r1 = 2%nat) by (apply Hrow; right; left; reflexivity). destruct r0 as [|e00 [|e01 [|? ?]]]; cbn in L0; try lia. destruct r1 as [|e10 [|e11 [|? ?]]]; cbn in L1; try lia.
    destruct c as [|x [|y [|? ?]]]; cbn in Lc; try lia. destruct Hs as (Lb & Hs). destruct b as [|p [|q [|? ?]]]; cbn in Lb; try lia. pose proof (Hs 0%nat ltac:(cbn; lia)) as E0. pose proof (Hs 1%nat ltac:(cbn; lia)) as E1. unfold rsum in E0, E1. cbn in E0, E1. unfold Pos.to_nat in E0, E1. cbn in E0, E1. cbn [nth].
    set (d := e00 * e11 - e01 * e10). assert (Hd : d <> 0).
    { intros Hd0. unfold d in Hd0. assert (Hk : forall u w, e00 * u + e01 * w = 0 -> e10 * u + e11 * w = 0 -> u = 0 /\ w = 0).
      { intros u w K0 K1. assert (X : [x + u; y + w] = [x; y]).
        { apply Huniq; [reflexivity|]. split; [reflexivity|]. intros [|[|k]] Hk'; cbn [length] in Hk'; [| |lia]; unfold rsum; cbn; unfold Pos.to_nat; cbn; lra. }
        injection X as X1 X2. split; lra. }
      destruct (Hk e01 (- e00)) as (K1 & K2); [ring | lra|]. destruct (Hk e11 (- e10)) as (K3 & K4); [lra | ring|]. destruct (Hk 1 0) as (K5 & _); [replace e00 with 0 by lra; ring | replace e10 with 0 by lra; ring|]. lra. }
    apply try_solver_ok with (c := [(p * e11 - e01 * q) / d; (e00 * q - p * e10) / d]); [right; left; reflexivity | intros row [<- | [<- | []]]; reflexivity|]. split; [reflexivity|].
    intros [|[|k]] Hk; cbn [length] in Hk; [| |lia]; unfold rsum; cbn; unfold Pos.to_nat; cbn; unfold d in *; field; exact Hd.
Qed.
(** ** a grid of 4 x 2 cells, two velocity components *)
Definition li_g : grid := mkgrid [4; 2]%nat [1; 1] [(0, 4); (0, 2)].
Definition li_o (j : nat) : list Q := match j with 0%nat => [1; 1 # 2]%Q | _ => [1 # 2; 1]%Q end.
Definition li_u (F : list Z -> R) (o : list Q) : gvar := mkgv (mkga (mkarr [4; 2]%nat F) o li_g) (mkbc [(Periodic, Periodic); (Periodic, Periodic)] [(None, None); (None, None)] true).
Definition li_c : list Z -> R := fun ix => IZR (nth 0 ix 0%Z * nth 0 ix 0%Z + nth 1 ix 0%Z).
Definition li_v : list gvar := [li_u li_c (li_o 0); li_u (fun _ => 5) (li_o 1)].
Definition li_tower (F : list Z -> R) (n : nat) (x : arr R) : result (arr R) := Ok (mkarr (removelast (shp x) ++ [n]) F).
Lemma li_keeps F c : keeps_grid [4; 2]%nat c (li_tower F).
Proof. intros n x Hx. eexists; split; [reflexivity|]. unfold channels_last in *. cbn [shp]. rewrite Hx, removelast_app1. reflexivity. Qed.
Lemma li_setting F : learned_setting cramer (cand_svd []) li_g li_v [None; Some 0%nat] (isotropic_sizes 2 2) (li_tower F).
Proof.
  split; [exact cramer_correct|]. split; [exact cramer_small|]. split; [apply cand_svd_correct|]. split; [exists 1; split; [lra | reflexivity]|]. split; [cbn; lia|]. split; [intros [|[|i]] Hi; cbn in *; lia|].
  split; [discriminate|]. split; [discriminate|]. split; [intros u [<- | [<- | []]]; split; reflexivity|]. split; [intros o o' p p' t _ _; reflexivity|]. split; [|apply li_keeps].
  intros k _. split; [reflexivity|]. split; [intros [|[|i]] Hi; cbn in *; lia | cbn; lia].
Qed.
Lemma li_room L m : tiled_by [4; 2]%nat L m -> nth 0 m 0%nat = 2%nat -> nth 1 m 0%nat = 2%nat -> has_room [4; 2]%nat (Some L) [2; 2]%nat.
Proof. intros H H0 H1. exists m. split; [exact H|]. intros [|[|i]] Hi; cbn [nth length] in *; [rewrite H0 | rewrite H1 | lia]; cbn; lia. Qed.
Lemma li_tiled : tiled_by [4; 2]%nat [2; 1]%nat [2; 2]%nat.
Proof. split; [cbn; lia|]. split; [reflexivity|]. split; [reflexivity|]. intros [|[|i]] Hi; cbn in *; lia. Qed.
Lemma li_options : options_fit (gshape li_g) (fun S => exists k, asked li_v [None; Some 0%nat] k /\ isotropic_sizes 2 2 k = S) PConv true true true (Some [2; 1]%nat).
Proof.
  assert (Hr : has_room [4; 2]%nat (Some [2; 1]%nat) [2; 2]%nat) by (eapply li_room; [exact li_tiled | reflexivity | reflexivity]).
  split; [discriminate|]. split; [intros _ S (k & _ & <-); exact Hr|]. intros _. split; [intros L [= <-]; exists [2; 2]%nat; exact li_tiled|]. split; [intros _; discriminate|]. intros _. exists [2; 2]%nat. split; [intros S' (k & _ & <-); reflexivity | exact Hr].
Qed.
Lemma li_asked : asked li_v [None; Some 0%nat] (li_o 0, half_a_cell 1 (li_o 0), Some 0%nat).
Proof. exists (li_u li_c (li_o 0)), 1%nat, (Some 0%nat). split; [left; reflexivity|]. split; [cbn; lia|]. split; [right; left; reflexivity | reflexivity]. Qed.
Lemma li_data F j : cell_data li_g (li_o j) (li_u F (li_o j)).
Proof. split; [apply off_eq_refl|]. split; reflexivity. Qed.
