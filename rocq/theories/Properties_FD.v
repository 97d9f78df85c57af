(** Generated by tools/gen.py from FDProps.v: property theorems only. *)
From Verif Require Import Prelude NdArr Grids_model Spec Boundaries_model BoundariesPeriodic FD_model PRep FDProofs.
From Verif Require Import FDProps.
Set Implicit Arguments.

(** C14. forward_difference of a periodic variable returns (u[i+1]-u[i])/h at offset +1/2. *)
Theorem forward_difference_spec : forall u ax, periodic_field u -> (ax < gndim (ggrid (garray u)))%nat ->
  exists w, forward_difference u ax = Ok w /\
    is_field w (ggrid (garray u)) (offs ax (1 # 2) (goff (garray u)))
      (fun ix => (pval (garray u) (next ax ix) - pval (garray u) ix) / hstep (ggrid (garray u)) ax)%R.
Proof. exact (@forward_difference_spec_lem). Qed.
Print Assumptions forward_difference_spec.

(** The hypotheses are met by a concrete case. *)
Example forward_difference_spec_ex :
  let u := mkgv (mkga (mkarr [3%nat; 2%nat] (fun ix => IZR (nth 0 ix 0 * 10 + nth 1 ix 0)%Z)) [(1 # 2)%Q; 1%Q]
                      (mkgrid [3%nat; 2%nat] [1%R; 2%R] [(0%R, 3%R); (0%R, 4%R)])) (periodic_bc 2) in
  periodic_field u /\ (1 < gndim (ggrid (garray u)))%nat.
Proof. exact (@forward_difference_spec_ex_lem). Qed.

(** C14. backward_difference returns (u[i]-u[i-1])/h at offset -1/2. *)
Theorem backward_difference_spec : forall u ax, periodic_field u -> (ax < gndim (ggrid (garray u)))%nat ->
  exists w, backward_difference u ax = Ok w /\
    is_field w (ggrid (garray u)) (offs ax (- 1 # 2) (goff (garray u)))
      (fun ix => (pval (garray u) ix - pval (garray u) (prev ax ix)) / hstep (ggrid (garray u)) ax)%R.
Proof. exact (@backward_difference_spec_lem). Qed.
Print Assumptions backward_difference_spec.

(** The hypotheses are met by a concrete case. *)
Example backward_difference_spec_ex :
  let u := mkgv (mkga (mkarr [3%nat; 2%nat] (fun ix => IZR (nth 0 ix 0 * 10 + nth 1 ix 0)%Z)) [(1 # 2)%Q; 1%Q]
                      (mkgrid [3%nat; 2%nat] [1%R; 2%R] [(0%R, 3%R); (0%R, 4%R)])) (periodic_bc 2) in
  exists w, backward_difference u 0 = Ok w /\ get (gdata w) [0%Z; 0%Z] = (- 20)%R.
Proof. exact (@backward_difference_spec_ex_lem). Qed.

(** C14. central_difference returns (u[i+1]-u[i-1])/(2h) at the offset of u. *)
Theorem central_difference_spec : forall u ax, periodic_field u -> (ax < gndim (ggrid (garray u)))%nat ->
  exists w, central_difference u ax = Ok w /\
    is_field w (ggrid (garray u)) (goff (garray u))
      (fun ix => (pval (garray u) (next ax ix) - pval (garray u) (prev ax ix)) / (2 * hstep (ggrid (garray u)) ax))%R.
Proof. exact (@central_difference_spec_lem). Qed.
Print Assumptions central_difference_spec.

(** The hypotheses are met by a concrete case. *)
Example central_difference_spec_ex :
  let u := mkgv (mkga (mkarr [4%nat] (fun ix => IZR (nth 0 ix 0 * nth 0 ix 0)%Z)) [(1 # 2)%Q]
                      (mkgrid [4%nat] [1%R] [(0%R, 4%R)])) (periodic_bc 1) in
  exists w, central_difference u 0 = Ok w /\ get (gdata w) [2%Z] = 4%R.
Proof. exact (@central_difference_spec_ex_lem). Qed.

(** C14. On samples of an affine function of position the three difference quotients return its slope wherever the stencil does not wrap around. *)
Theorem differences_exact_on_affine : forall u ax c sl, periodic_field u -> (ax < gndim (ggrid (garray u)))%nat ->
  (forall ix, inb (gshape (ggrid (garray u))) ix ->
     get (gdata (garray u)) ix = affine (ggrid (garray u)) (goff (garray u)) c sl ix) ->
  exists wf wb wc, forward_difference u ax = Ok wf /\ backward_difference u ax = Ok wb /\ central_difference u ax = Ok wc /\
  forall ix, inb (gshape (ggrid (garray u))) ix ->
    (inb (gshape (ggrid (garray u))) (next ax ix) -> get (gdata wf) ix = sl ax) /\
    (inb (gshape (ggrid (garray u))) (prev ax ix) -> get (gdata wb) ix = sl ax) /\
    (inb (gshape (ggrid (garray u))) (next ax ix) -> inb (gshape (ggrid (garray u))) (prev ax ix) -> get (gdata wc) ix = sl ax).
Proof. exact (@differences_exact_on_affine_lem). Qed.
Print Assumptions differences_exact_on_affine.

(** The hypotheses are met by a concrete case. *)
Example differences_exact_on_affine_ex :
  let g := mkgrid [4%nat] [2%R] [(1%R, 9%R)] in
  (forall ix, inb [4%nat] ix -> get (mkarr [4%nat] (fun ix => (5 + 3 * (1 + (IZR (nth 0%nat ix 0%Z) + / 2) * 2))%R)) ix = affine g [(1 # 2)%Q] 5%R (fun _ => 3%R) ix) /\
  inb [4%nat] [1%Z] /\ inb [4%nat] (next 0 [1%Z]) /\ inb [4%nat] (prev 0 [1%Z]).
Proof. exact (@differences_exact_on_affine_ex_lem). Qed.

(** C14. The difference quotients are linear. *)
Theorem differences_linear : forall al be u w s ax,
  periodic_field u -> periodic_field w -> periodic_field s -> lincomb al be u w s -> (ax < gndim (ggrid (garray s)))%nat ->
  forall D, In D [forward_difference; backward_difference; central_difference] ->
  exists du dw ds, D u ax = Ok du /\ D w ax = Ok dw /\ D s ax = Ok ds /\
    forall ix, inb (gshape (ggrid (garray s))) ix -> get (gdata ds) ix = (al * get (gdata du) ix + be * get (gdata dw) ix)%R.
Proof. exact (@differences_linear_lem). Qed.
Print Assumptions differences_linear.

(** The hypotheses are met by a concrete case. *)
Example differences_linear_ex :
  let mk f := mkgv (mkga (mkarr [3%nat] f) [(1 # 2)%Q] (mkgrid [3%nat] [1%R] [(0%R, 3%R)])) (periodic_bc 1) in
  lincomb 2 3 (mk (fun ix => IZR (nth 0 ix 0%Z))) (mk (fun _ => 1%R)) (mk (fun ix => (2 * IZR (nth 0%nat ix 0%Z) + 3)%R)).
Proof. exact (@differences_linear_ex_lem). Qed.

(** C14. The difference quotients of a constant are zero. *)
Theorem differences_of_constant : forall u c ax, periodic_field u -> constant_field u c -> (ax < gndim (ggrid (garray u)))%nat ->
  forall D, In D [forward_difference; backward_difference; central_difference] ->
  exists w, D u ax = Ok w /\ forall ix, inb (gshape (ggrid (garray u))) ix -> get (gdata w) ix = 0%R.
Proof. exact (@differences_of_constant_lem). Qed.
Print Assumptions differences_of_constant.

(** The hypotheses are met by a concrete case. *)
Example differences_of_constant_ex :
  constant_field (mkgv (mkga (afull [3%nat] 7%R) [(1 # 2)%Q] (mkgrid [3%nat] [1%R] [(0%R, 3%R)])) (periodic_bc 1)) 7.
Proof. exact (@differences_of_constant_ex_lem). Qed.

(** C15. laplacian(u) of a periodic variable is the sum over axes of (u[+1] - 2u + u[-1])/h^2, at the offset of u. *)
Theorem laplacian_spec : forall u, periodic_field u ->
  exists w, laplacian u = Ok w /\
    is_field w (ggrid (garray u)) (goff (garray u))
      (fun ix => nsum (gndim (ggrid (garray u))) (fun ax =>
         (pval (garray u) (next ax ix) - 2 * pval (garray u) ix + pval (garray u) (prev ax ix))
         / (hstep (ggrid (garray u)) ax * hstep (ggrid (garray u)) ax))%R).
Proof. exact (@laplacian_spec_lem). Qed.
Print Assumptions laplacian_spec.

(** The hypotheses are met by a concrete case. *)
Example laplacian_spec_ex :
  let u := mkgv (mkga (mkarr [4%nat] (fun ix => IZR (nth 0 ix 0 * nth 0 ix 0)%Z)) [(1 # 2)%Q]
                      (mkgrid [4%nat] [1%R] [(0%R, 4%R)])) (periodic_bc 1) in
  exists w, laplacian u = Ok w /\ get (gdata w) [2%Z] = 2%R.
Proof. exact (@laplacian_spec_ex_lem). Qed.

(** C15. laplacian(u) equals divergence(forward gradient of u): same data, same offset, same grid, for every periodic variable (at least one axis). *)
Theorem laplacian_is_div_grad : forall u b, periodic_field u -> (0 < gndim (ggrid (garray u)))%nat -> perbc (ggrid (garray u)) b ->
  exists l gs d, laplacian u = Ok l /\ forward_gradient u = Ok gs /\
    divergence (map (fun w => mkgv w b) gs) = Ok d /\ same_field d l.
Proof. exact (@laplacian_is_div_grad_lem). Qed.
Print Assumptions laplacian_is_div_grad.

(** The hypotheses are met by a concrete case. *)
Example laplacian_is_div_grad_ex :
  let u := mkgv (mkga (mkarr [3%nat; 2%nat] (fun ix => IZR (nth 0 ix 0 * 10 + nth 1 ix 0)%Z)) [(1 # 2)%Q; 1%Q]
                      (mkgrid [3%nat; 2%nat] [1%R; 2%R] [(0%R, 3%R); (0%R, 4%R)])) (periodic_bc 2) in
  periodic_field u /\ (0 < gndim (ggrid (garray u)))%nat /\ perbc (ggrid (garray u)) (periodic_bc 2).
Proof. exact (@laplacian_is_div_grad_ex_lem). Qed.

(** C15. The laplacian is linear and vanishes on constants. *)
Theorem laplacian_linear : forall al be u w s,
  periodic_field u -> periodic_field w -> periodic_field s -> lincomb al be u w s ->
  exists lu lw ls, laplacian u = Ok lu /\ laplacian w = Ok lw /\ laplacian s = Ok ls /\
    forall ix, inb (gshape (ggrid (garray s))) ix -> get (gdata ls) ix = (al * get (gdata lu) ix + be * get (gdata lw) ix)%R.
Proof. exact (@laplacian_linear_lem). Qed.
Print Assumptions laplacian_linear.

(** The hypotheses are met by a concrete case. *)
Example laplacian_linear_ex :
  let mk f := mkgv (mkga (mkarr [3%nat] f) [(1 # 2)%Q] (mkgrid [3%nat] [1%R] [(0%R, 3%R)])) (periodic_bc 1) in
  lincomb 2 3 (mk (fun ix => IZR (nth 0 ix 0%Z))) (mk (fun _ => 1%R)) (mk (fun ix => (2 * IZR (nth 0%nat ix 0%Z) + 3)%R)).
Proof. exact (@laplacian_linear_ex_lem). Qed.

(** C15. The laplacian of a constant is zero. *)
Theorem laplacian_constant : forall u c, periodic_field u -> constant_field u c ->
  exists w, laplacian u = Ok w /\ forall ix, inb (gshape (ggrid (garray u))) ix -> get (gdata w) ix = 0%R.
Proof. exact (@laplacian_constant_lem). Qed.
Print Assumptions laplacian_constant.

(** The hypotheses are met by a concrete case. *)
Example laplacian_constant_ex :
  constant_field (mkgv (mkga (afull [3%nat] 7%R) [(1 # 2)%Q] (mkgrid [3%nat] [1%R] [(0%R, 3%R)])) (periodic_bc 1)) 7.
Proof. exact (@laplacian_constant_ex_lem). Qed.

(** C16. The divergence of a staggered periodic velocity is defined, sits at the common cell point, and is the sum over axes of (v_i[ix] - v_i[ix-1])/h_i. *)
Theorem divergence_spec : forall g o v, (0 < gndim g)%nat -> periodic_vec g v -> length o = gndim g -> face_aligned o v ->
  exists w, divergence v = Ok w /\
    is_field w g o (fun ix => nsum (gndim g) (fun i => (vval v i ix - vval v i (prev i ix)) / hstep g i)%R).
Proof. exact (@divergence_spec_lem). Qed.
Print Assumptions divergence_spec.

(** The hypotheses are met by a concrete case. *)
Example divergence_spec_ex :
  let g := mkgrid [3%nat; 2%nat] [1%R; 2%R] [(0%R, 3%R); (0%R, 4%R)] in
  let v := [mkgv (mkga (mkarr [3%nat; 2%nat] (fun ix => IZR (nth 0 ix 0 * 10 + nth 1 ix 0)%Z)) [1%Q; (1 # 2)%Q] g) (periodic_bc 2);
            mkgv (mkga (mkarr [3%nat; 2%nat] (fun ix => IZR (nth 0 ix 0 * nth 1 ix 0)%Z)) [(1 # 2)%Q; 1%Q] g) (periodic_bc 2)] in
  periodic_vec g v /\ face_aligned [(1 # 2)%Q; (1 # 2)%Q] v.
Proof. exact (@divergence_spec_ex_lem). Qed.

(** C16. Whenever divergence or centered_divergence of periodic variables returns, its sum over all cells is zero; the sums of laplacian and of the difference quotients of a periodic variable are zero. *)
Theorem divergence_conserves : forall g v w, (0 < gndim g)%nat -> periodic_vec g v ->
  divergence v = Ok w \/ centered_divergence v = Ok w -> total (gdata w) = 0%R.
Proof. exact (@divergence_conserves_lem). Qed.
Print Assumptions divergence_conserves.

(** The hypotheses are met by a concrete case. *)
Example divergence_conserves_ex :
  let g := mkgrid [3%nat] [2%R] [(0%R, 6%R)] in
  let v := [mkgv (mkga (mkarr [3%nat] (fun ix => IZR (nth 0 ix 0%Z))) [1%Q] g) (periodic_bc 1)] in
  periodic_vec g v /\ exists w, divergence v = Ok w /\ get (gdata w) [0%Z] = (-1)%R.
Proof. exact (@divergence_conserves_ex_lem). Qed.

(** C16. Sums of difference quotients and of the laplacian vanish. *)
Theorem differences_conserve : forall u ax w, periodic_field u -> (ax < gndim (ggrid (garray u)))%nat ->
  In (Ok w) [forward_difference u ax; backward_difference u ax; central_difference u ax; laplacian u] ->
  total (gdata w) = 0%R.
Proof. exact (@differences_conserve_lem). Qed.
Print Assumptions differences_conserve.

(** The hypotheses are met by a concrete case. *)
Example differences_conserve_ex :
  let u := mkgv (mkga (mkarr [3%nat; 2%nat] (fun ix => IZR (nth 0 ix 0 * 10 + nth 1 ix 0)%Z)) [(1 # 2)%Q; 1%Q]
                      (mkgrid [3%nat; 2%nat] [1%R; 2%R] [(0%R, 3%R); (0%R, 4%R)])) (periodic_bc 2) in
  periodic_field u /\ exists w, In (Ok w) [forward_difference u 1; backward_difference u 1; central_difference u 1; laplacian u].
Proof. exact (@differences_conserve_ex_lem). Qed.

(** C16. Summation by parts: sum(u * div v) = - sum(grad u . v) for a cell variable u and face-aligned v. *)
Theorem summation_by_parts : forall g o u v, (0 < gndim g)%nat -> periodic_vec g v -> length o = gndim g -> face_aligned o v ->
  periodic_field u -> ggrid (garray u) = g -> off_eq (goff (garray u)) o ->
  exists d gs, divergence v = Ok d /\ forward_gradient u = Ok gs /\
    asum (gshape g) (fun ix => get (gdata (garray u)) ix * get (gdata d) ix)%R =
    (- nsum (gndim g) (fun i => asum (gshape g) (fun ix => get (gdata (nth i gs (garray u))) ix * vval v i ix)))%R.
Proof. exact (@summation_by_parts_lem). Qed.
Print Assumptions summation_by_parts.

(** The hypotheses are met by a concrete case. *)
Example summation_by_parts_ex :
  let g := mkgrid [3%nat] [2%R] [(0%R, 6%R)] in
  let v := [mkgv (mkga (mkarr [3%nat] (fun ix => IZR (nth 0 ix 0%Z))) [1%Q] g) (periodic_bc 1)] in
  let u := mkgv (mkga (mkarr [3%nat] (fun ix => IZR (nth 0 ix 0 * nth 0 ix 0)%Z)) [(1 # 2)%Q] g) (periodic_bc 1) in
  periodic_vec g v /\ face_aligned [(1 # 2)%Q] v /\ periodic_field u.
Proof. exact (@summation_by_parts_ex_lem). Qed.

(** C18. The periodic laplacian is symmetric: sum(u * lap w) = sum(lap u * w). *)
Theorem laplacian_symmetric : forall u w, periodic_field u -> periodic_field w -> ggrid (garray u) = ggrid (garray w) ->
  exists lu lw, laplacian u = Ok lu /\ laplacian w = Ok lw /\
    asum (gshape (ggrid (garray u))) (fun ix => get (gdata (garray u)) ix * get (gdata lw) ix)%R =
    asum (gshape (ggrid (garray u))) (fun ix => get (gdata lu) ix * get (gdata (garray w)) ix)%R.
Proof. exact (@laplacian_symmetric_lem). Qed.
Print Assumptions laplacian_symmetric.

(** The hypotheses are met by a concrete case. *)
Example laplacian_symmetric_ex :
  let u := mkgv (mkga (mkarr [3%nat; 2%nat] (fun ix => IZR (nth 0 ix 0 * 10 + nth 1 ix 0)%Z)) [(1 # 2)%Q; 1%Q]
                      (mkgrid [3%nat; 2%nat] [1%R; 2%R] [(0%R, 3%R); (0%R, 4%R)])) (periodic_bc 2) in
  periodic_field u.
Proof. exact (@laplacian_symmetric_ex_lem). Qed.

(** C18. sum(u * lap u) is minus the sum over axes of the squared forward differences, hence never positive. *)
Theorem laplacian_negative : forall u, periodic_field u ->
  exists lu gs, laplacian u = Ok lu /\ forward_gradient u = Ok gs /\
    asum (gshape (ggrid (garray u))) (fun ix => get (gdata (garray u)) ix * get (gdata lu) ix)%R =
    (- nsum (gndim (ggrid (garray u))) (fun i => asum (gshape (ggrid (garray u))) (fun ix => Rsqr (get (gdata (nth i gs (garray u))) ix))))%R /\
    (asum (gshape (ggrid (garray u))) (fun ix => get (gdata (garray u)) ix * get (gdata lu) ix) <= 0)%R.
Proof. exact (@laplacian_negative_lem). Qed.
Print Assumptions laplacian_negative.

(** The hypotheses are met by a concrete case. *)
Example laplacian_negative_ex :
  let u := mkgv (mkga (mkarr [3%nat; 2%nat] (fun ix => IZR (nth 0 ix 0 * 10 + nth 1 ix 0)%Z)) [(1 # 2)%Q; 1%Q]
                      (mkgrid [3%nat; 2%nat] [1%R; 2%R] [(0%R, 3%R); (0%R, 4%R)])) (periodic_bc 2) in
  periodic_field u.
Proof. exact (@laplacian_negative_ex_lem). Qed.

(** C17. curl_2d of the forward gradient of any periodic variable is zero everywhere. *)
Theorem curl_2d_of_gradient : forall u b, periodic_field u -> gndim (ggrid (garray u)) = 2%nat -> perbc (ggrid (garray u)) b ->
  exists gs c, forward_gradient u = Ok gs /\ curl_2d (map (fun w => mkgv w b) gs) = Ok c /\
    off_eq (goff c) (offs 0 (1 # 2) (offs 1 (1 # 2) (goff (garray u)))) /\ shp (gdata c) = gshape (ggrid (garray u)) /\
    forall ix, inb (gshape (ggrid (garray u))) ix -> get (gdata c) ix = 0%R.
Proof. exact (@curl_2d_of_gradient_lem). Qed.
Print Assumptions curl_2d_of_gradient.

(** The hypotheses are met by a concrete case. *)
Example curl_2d_of_gradient_ex :
  let u := mkgv (mkga (mkarr [3%nat; 2%nat] (fun ix => IZR (nth 0 ix 0 * 10 + nth 1 ix 0)%Z)) [(1 # 2)%Q; 1%Q]
                      (mkgrid [3%nat; 2%nat] [1%R; 2%R] [(0%R, 3%R); (0%R, 4%R)])) (periodic_bc 2) in
  periodic_field u /\ gndim (ggrid (garray u)) = 2%nat.
Proof. exact (@curl_2d_of_gradient_ex_lem). Qed.

(** C17. The (forward-difference) divergence of curl_3d(v) is zero everywhere, for every periodic v on which curl_3d returns. *)
Theorem div_of_curl_3d : forall g v b cx cy cz, gndim g = 3%nat -> periodic_vec g v -> perbc g b ->
  curl_3d v = Ok (cx, cy, cz) ->
  exists dx dy dz, forward_difference (mkgv cx b) 0 = Ok dx /\ forward_difference (mkgv cy b) 1 = Ok dy /\
    forward_difference (mkgv cz b) 2 = Ok dz /\
    forall ix, inb (gshape g) ix -> (get (gdata dx) ix + get (gdata dy) ix + get (gdata dz) ix = 0)%R.
Proof. exact (@div_of_curl_3d_lem). Qed.
Print Assumptions div_of_curl_3d.

(** The hypotheses are met by a concrete case. *)
Example div_of_curl_3d_ex :
  let g := mkgrid [2%nat; 2%nat; 3%nat] [1%R; 2%R; 1%R] [(0%R, 2%R); (0%R, 4%R); (0%R, 3%R)] in
  let mk f o := mkgv (mkga (mkarr [2%nat; 2%nat; 3%nat] f) o g) (periodic_bc 3) in
  let v := [mk (fun ix => IZR (nth 1 ix 0 * nth 2 ix 0)%Z) [1%Q; (1 # 2)%Q; (1 # 2)%Q];
            mk (fun ix => IZR (nth 0 ix 0 + 2)%Z) [(1 # 2)%Q; 1%Q; (1 # 2)%Q];
            mk (fun ix => IZR (nth 1 ix 0 - nth 0 ix 0)%Z) [(1 # 2)%Q; (1 # 2)%Q; 1%Q]] in
  periodic_vec g v.
Proof. exact (@div_of_curl_3d_ex_lem). Qed.

(** C17. curl_3d is defined on every face-aligned (staggered) periodic velocity. *)
Theorem curl_3d_defined : forall g o v, gndim g = 3%nat -> periodic_vec g v -> length o = 3%nat -> face_aligned o v ->
  exists c, curl_3d v = Ok c.
Proof. exact (@curl_3d_defined_lem). Qed.
Print Assumptions curl_3d_defined.

(** The hypotheses are met by a concrete case. *)
Example curl_3d_defined_ex :
  let g := mkgrid [2%nat; 2%nat; 3%nat] [1%R; 2%R; 1%R] [(0%R, 2%R); (0%R, 4%R); (0%R, 3%R)] in
  let mk f o := mkgv (mkga (mkarr [2%nat; 2%nat; 3%nat] f) o g) (periodic_bc 3) in
  let v := [mk (fun ix => IZR (nth 1 ix 0 * nth 2 ix 0)%Z) [1%Q; (1 # 2)%Q; (1 # 2)%Q];
            mk (fun ix => IZR (nth 0 ix 0 + 2)%Z) [(1 # 2)%Q; 1%Q; (1 # 2)%Q];
            mk (fun ix => IZR (nth 1 ix 0 - nth 0 ix 0)%Z) [(1 # 2)%Q; (1 # 2)%Q; 1%Q]] in
  periodic_vec g v /\ face_aligned [(1 # 2)%Q; (1 # 2)%Q; (1 # 2)%Q] v.
Proof. exact (@curl_3d_defined_ex_lem). Qed.

(** C17. curl_3d of the forward gradient of any periodic variable is zero everywhere. *)
Theorem curl_3d_of_gradient : forall u b, periodic_field u -> gndim (ggrid (garray u)) = 3%nat -> perbc (ggrid (garray u)) b ->
  exists gs cx cy cz, forward_gradient u = Ok gs /\ curl_3d (map (fun w => mkgv w b) gs) = Ok (cx, cy, cz) /\
    forall ix, inb (gshape (ggrid (garray u))) ix ->
      get (gdata cx) ix = 0%R /\ get (gdata cy) ix = 0%R /\ get (gdata cz) ix = 0%R.
Proof. exact (@curl_3d_of_gradient_lem). Qed.
Print Assumptions curl_3d_of_gradient.

(** The hypotheses are met by a concrete case. *)
Example curl_3d_of_gradient_ex :
  let g := mkgrid [2%nat; 2%nat; 3%nat] [1%R; 2%R; 1%R] [(0%R, 2%R); (0%R, 4%R); (0%R, 3%R)] in
  periodic_field (mkgv (mkga (mkarr [2%nat; 2%nat; 3%nat] (fun ix => IZR (nth 1 ix 0 * nth 2 ix 0)%Z)) [1%Q; (1 # 2)%Q; (1 # 2)%Q] g) (periodic_bc 3)).
Proof. exact (@curl_3d_of_gradient_ex_lem). Qed.
