(** Rigid-motion covariance of the sources in a homogeneous space. *)
From Coq Require Import Reals Lra Lia List String.
From Coquelicot Require Import Coquelicot.
From Verif Require Import Vec3 Cplx Numpy Model_Static Model_Gravity Model_FDEM Model_TDEM Spec_Static Spec_Loop Spec_Symmetry
  Proof_Gravity Proof_Sphere Proof_Line Proof_Line2 Proof_Loop2 Proof_Static3.
Import ListNotations.
Open Scope R_scope.

Lemma iso_dot m u v : is_isometry m -> vdot (mvec m u) (mvec m v) = vdot u v.
Proof.
  intros [H _]. transitivity (vdot u (mvec (mmul (mtrans m) m) v)).
  - destruct m as [[] [] []], u, v; vunf; ring.
  - rewrite H. destruct u, v; vunf; ring.
Qed.
Lemma iso_norm m u : is_isometry m -> vnorm (mvec m u) = vnorm u.
Proof. intros H. unfold vnorm. f_equal. exact (iso_dot m u u H). Qed.
Lemma mvec_sub m u v : mvec m (vsub u v) = vsub (mvec m u) (mvec m v).
Proof. destruct m as [[] [] []], u, v; vring. Qed.
Lemma mvec_add m u v : mvec m (vadd u v) = vadd (mvec m u) (mvec m v).
Proof. destruct m as [[] [] []], u, v; vring. Qed.
Lemma mvec_scal m k u : mvec m (vscal k u) = vscal k (mvec m u).
Proof. destruct m as [[] [] []], u; vring. Qed.
Lemma mvec_opp m u : mvec m (vopp u) = vopp (mvec m u).
Proof. destruct m as [[] [] []], u; vring. Qed.
Lemma mvec_div m k u : mvec m (vdiv u k) = vdiv (mvec m u) k.
Proof. destruct m as [[] [] []], u. unfold vdiv, Rdiv. vring. Qed.
Lemma mvec_zero m : mvec m vzero = vzero.
Proof. destruct m as [[] [] []]. vring. Qed.
Lemma move_sub m t p q : vsub (move m t p) (move m t q) = mvec m (vsub p q).
Proof. unfold move. destruct m as [[] [] []], p, q, t; vring. Qed.
Lemma cof_mul m u v : mvec (mtrans m) (vcross (mvec m u) (mvec m v)) = vscal (mdet m) (vcross u v).
Proof. destruct m as [[] [] []], u, v; vring. Qed.
Lemma iso_back m v : is_isometry m -> mvec m (mvec (mtrans m) v) = v.
Proof.
  intros [_ H]. transitivity (mvec (mmul m (mtrans m)) v).
  - destruct m as [[] [] []], v; vring.
  - rewrite H. destruct v; vring.
Qed.
Lemma iso_forth m v : is_isometry m -> mvec (mtrans m) (mvec m v) = v.
Proof.
  intros [H _]. transitivity (mvec (mmul (mtrans m) m) v).
  - destruct m as [[] [] []], v; vring.
  - rewrite H. destruct v; vring.
Qed.
Lemma iso_inj m u v : is_isometry m -> mvec m u = mvec m v -> u = v.
Proof. intros H E. rewrite <- (iso_forth m u H), E. apply iso_forth, H. Qed.
Lemma iso_cross m u v : is_isometry m -> vcross (mvec m u) (mvec m v) = axial m (vcross u v).
Proof.
  intros H. rewrite <- (iso_back m (vcross (mvec m u) (mvec m v)) H), cof_mul. unfold axial. apply mvec_scal.
Qed.
Lemma iso_det2 m : is_isometry m -> mdet m * mdet m = 1.
Proof.
  intros [H _]. transitivity (mdet (mmul (mtrans m) m)).
  - destruct m as [[] [] []]; vunf; ring.
  - rewrite H. vunf. ring.
Qed.
Lemma axial_scal m k u : axial m (vscal k u) = vscal k (axial m u).
Proof. unfold axial. rewrite mvec_scal. destruct (mvec m u); vring. Qed.
Lemma axial_add m u v : axial m (vadd u v) = vadd (axial m u) (axial m v).
Proof. unfold axial. rewrite mvec_add. destruct (mvec m u), (mvec m v); vring. Qed.
Lemma axial_sub m u v : axial m (vsub u v) = vsub (axial m u) (axial m v).
Proof. unfold axial. rewrite mvec_sub. destruct (mvec m u), (mvec m v); vring. Qed.
Lemma axial_div m k u : axial m (vdiv u k) = vdiv (axial m u) k.
Proof. unfold axial. rewrite mvec_div. destruct (mvec m u). unfold vdiv, Rdiv. vring. Qed.
Lemma dot_axial m u v : is_isometry m -> vdot (mvec m u) (axial m v) = mdet m * vdot u v.
Proof. intros H. unfold axial. rewrite <- (iso_dot m u v H). destruct (mvec m u), (mvec m v); vunf; ring. Qed.
(** polar x axial = polar *)
Lemma cross_pa m u v : is_isometry m -> vcross (mvec m u) (axial m v) = mvec m (vcross u v).
Proof.
  intros H. transitivity (vscal (mdet m) (vcross (mvec m u) (mvec m v))).
  - unfold axial. destruct (mvec m u), (mvec m v); vring.
  - rewrite iso_cross by exact H. unfold axial. transitivity (vscal (mdet m * mdet m) (mvec m (vcross u v))).
    + destruct (mvec m (vcross u v)); vring.
    + rewrite iso_det2 by exact H. destruct (mvec m (vcross u v)); vring.
Qed.
Lemma cross_ap m u v : is_isometry m -> vcross (axial m u) (mvec m v) = mvec m (vcross u v).
Proof.
  intros H. transitivity (vopp (vcross (mvec m v) (axial m u))).
  - destruct (mvec m v), (axial m u); vring.
  - rewrite cross_pa, <- mvec_opp by exact H. f_equal. destruct u, v; vring.
Qed.
(** a real function of position times a dipole-like bracket of an axial vector *)
Lemma bracket_axial m k o h : is_isometry m -> vscal (k * vdot (mvec m h) (axial m o)) (mvec m h) = axial m (vscal (k * vdot h o) h).
Proof.
  intros H. rewrite dot_axial by exact H. unfold axial. rewrite mvec_scal. destruct (mvec m h); vring.
Qed.

(** complex vectors *)
Lemma cpolar_cvof m a v : cpolar m (cvof a v) = cvof a (mvec m v).
Proof.
  destruct a as [x y], m as [[] [] []], v. apply cvec_eq; apply C_eq; cbn; unfold vdot; cbn; ring.
Qed.
Lemma caxial_cvof m a v : caxial m (cvof a v) = cvof a (axial m v).
Proof.
  unfold axial. destruct a as [x y], (mvec m v) as [p q r] eqn:E. unfold caxial, axial.
  assert (F : forall w, mvec m (V3 (w * vx v) (w * vy v) (w * vz v)) = vscal w (mvec m v)) by (intro w; apply (mvec_scal m w v)).
  assert (A : re_vec (cvof (x, y) v) = V3 (x * vx v) (x * vy v) (x * vz v)) by (unfold re_vec; cbn; f_equal; ring).
  assert (B : im_vec (cvof (x, y) v) = V3 (y * vx v) (y * vy v) (y * vz v)) by (unfold im_vec; cbn; f_equal; ring).
  rewrite A, B, !F, E. apply cvec_eq; apply C_eq; cbn; ring.
Qed.
Lemma cpolar_scal m a v : cpolar m (cvscal a v) = cvscal a (cpolar m v).
Proof.
  destruct a as [x y], m as [[] [] []], v as [[] [] []]. apply cvec_eq; apply C_eq; cbn; unfold vdot; cbn; ring.
Qed.
Lemma cpolar_add m u v : cpolar m (cvadd u v) = cvadd (cpolar m u) (cpolar m v).
Proof.
  destruct m as [[] [] []], u as [[] [] []], v as [[] [] []]. apply cvec_eq; apply C_eq; cbn; unfold vdot; cbn; ring.
Qed.
Lemma caxial_cpolar m v : caxial m v = cvscal (RtoC (mdet m)) (cpolar m v).
Proof.
  unfold caxial, cpolar, axial, polar. destruct (mvec m (re_vec v)), (mvec m (im_vec v)). apply cvec_eq; apply C_eq; cbn; ring.
Qed.
Lemma cvscal_comm a b v : cvscal a (cvscal b v) = cvscal b (cvscal a v).
Proof. destruct v. apply cvec_eq; cbn; ring. Qed.
Lemma cvscal_add a u v : cvscal a (cvadd u v) = cvadd (cvscal a u) (cvscal a v).
Proof. destruct u, v. apply cvec_eq; cbn; ring. Qed.
Lemma caxial_scal m a v : caxial m (cvscal a v) = cvscal a (caxial m v).
Proof. rewrite !caxial_cpolar, cpolar_scal. apply cvscal_comm. Qed.
Lemma caxial_add m u v : caxial m (cvadd u v) = cvadd (caxial m u) (caxial m v).
Proof. rewrite !caxial_cpolar, cpolar_add. apply cvscal_add. Qed.

Lemma dipole_terms_polar m f kr h o : is_isometry m -> dipole_terms f kr (mvec m h) (mvec m o) = cpolar m (dipole_terms f kr h o).
Proof.
  intros H. unfold dipole_terms. rewrite iso_dot by exact H. rewrite cpolar_scal, cpolar_add, !cpolar_cvof. reflexivity.
Qed.
Lemma dipole_terms_axial m f kr h o : is_isometry m -> dipole_terms f kr (mvec m h) (axial m o) = caxial m (dipole_terms f kr h o).
Proof.
  intros H. unfold dipole_terms. rewrite dot_axial by exact H. rewrite caxial_scal, caxial_add, !caxial_cvof. do 2 f_equal.
  unfold axial. rewrite RtoC_mult. destruct (mvec m h). apply cvec_eq; cbn; rewrite RtoC_mult; ring.
Qed.

Lemma ed_covariant m t med I l o c p : is_isometry m ->
  let s := ED med I l o c in let s' := ED med I l (polar m o) (move m t c) in let p' := move m t p in
  ed_A s' p' = cpolar m (ed_A s p) /\ ed_E s' p' = cpolar m (ed_E s p) /\ ed_J s' p' = cpolar m (ed_J s p) /\
  ed_H s' p' = caxial m (ed_H s p) /\ ed_B s' p' = caxial m (ed_B s p).
Proof.
  intros H. unfold ed_B, ed_J. cbv zeta. rewrite cpolar_scal, caxial_scal. unfold ed_A, ed_E, ed_H, polar. cbn [ed_loc ed_orient ed_med ed_current ed_length].
  rewrite move_sub, iso_norm, <- mvec_div, dipole_terms_polar, iso_cross, caxial_cvof, cpolar_cvof by exact H. repeat split.
Qed.
Lemma mf_covariant m t med mom o c p : is_isometry m ->
  let s := MDF med mom o c in let s' := MDF med mom (axial m o) (move m t c) in let p' := move m t p in
  mf_A s' p' = caxial m (mf_A s p) /\ mf_E s' p' = cpolar m (mf_E s p) /\ mf_J s' p' = cpolar m (mf_J s p) /\
  mf_H s' p' = caxial m (mf_H s p) /\ mf_B s' p' = caxial m (mf_B s p).
Proof.
  intros H. unfold mf_B, mf_J. cbv zeta. rewrite cpolar_scal, caxial_scal. unfold mf_A, mf_E, mf_H. cbn [mf_loc mf_orient mf_med mf_moment].
  rewrite move_sub, iso_norm, <- mvec_div, dipole_terms_axial, cross_pa, caxial_cvof, cpolar_cvof by exact H. repeat split.
Qed.
Lemma te_covariant m t med I l o c p : is_isometry m ->
  let s := TED med I l o c in let s' := TED med I l (polar m o) (move m t c) in let p' := move m t p in
  te_A s' p' = polar m (te_A s p) /\ te_E s' p' = polar m (te_E s p) /\ te_J s' p' = polar m (te_J s p) /\
  te_H s' p' = axial m (te_H s p) /\ te_B s' p' = axial m (te_B s p) /\
  te_dH s' p' = axial m (te_dH s p) /\ te_dB s' p' = axial m (te_dB s p).
Proof.
  intros H. unfold te_B, te_dB, te_J, polar. cbv zeta. rewrite !axial_scal, mvec_scal. unfold te_A, te_E, te_H, te_dH. cbn [te_loc te_orient te_med te_current te_length].
  rewrite move_sub, iso_norm, <- mvec_div, iso_cross, iso_dot, !axial_scal, !mvec_scal, mvec_sub, !mvec_scal by exact H. repeat split.
Qed.
Lemma md_covariant m t mom o c mu p : is_isometry m ->
  let s := MD mom o c mu in let s' := MD mom (axial m o) (move m t c) mu in let p' := move m t p in
  mdipole_vector_potential s' "cartesian" p' = rmap (polar m) (mdipole_vector_potential s "cartesian" p) /\
  mdipole_flux_density s' "cartesian" p' = rmap (axial m) (mdipole_flux_density s "cartesian" p) /\
  mdipole_field s' "cartesian" p' = rmap (axial m) (mdipole_field s "cartesian" p).
Proof.
  intros H. cbv zeta. unfold mdipole_field. cbn [md_mu].
  assert (B : mdipole_flux_density (MD mom (axial m o) (move m t c) mu) "cartesian" (move m t p) = rmap (axial m) (mdipole_flux_density (MD mom o c mu) "cartesian" p)).
  { unfold mdipole_flux_density; rewrite !with_coordinates_cart by reflexivity; cbn [rmap]. f_equal. unfold md_B. cbn [md_loc md_orient md_moment md_mu].
    rewrite move_sub, iso_norm, <- mvec_div, bracket_axial, <- axial_sub, <- axial_scal by exact H. reflexivity. }
  split; [|split; [exact B|]].
  - unfold mdipole_vector_potential; rewrite !with_coordinates_cart by reflexivity; cbn [rmap]. f_equal. unfold md_A. cbn [md_loc md_orient md_moment md_mu].
    rewrite move_sub, iso_norm, <- mvec_div, cross_ap by exact H. unfold polar. rewrite <- mvec_scal. reflexivity.
  - rewrite B. destruct (mdipole_flux_density (MD mom o c mu) "cartesian" p); [|reflexivity]. cbn. now rewrite axial_div.
Qed.
Lemma mp_covariant m t mom o c mu p : is_isometry m ->
  let s := MD mom o c mu in let s' := MD mom o (move m t c) mu in let p' := move m t p in
  mpole_flux_density s' "cartesian" p' = rmap (polar m) (mpole_flux_density s "cartesian" p) /\
  mpole_field s' "cartesian" p' = rmap (polar m) (mpole_field s "cartesian" p).
Proof.
  intros H. cbv zeta. unfold mpole_field. cbn [md_mu].
  assert (B : mpole_flux_density (MD mom o (move m t c) mu) "cartesian" (move m t p) = rmap (polar m) (mpole_flux_density (MD mom o c mu) "cartesian" p)).
  { unfold mpole_flux_density; rewrite !with_coordinates_cart by reflexivity; cbn [rmap]. f_equal. unfold mp_B, polar. cbn [md_loc md_orient md_moment md_mu].
    rewrite move_sub, iso_norm, <- mvec_div, <- mvec_scal by exact H. reflexivity. }
  split; [exact B|].
  rewrite B. destruct (mpole_flux_density (MD mom o c mu) "cartesian" p); [|reflexivity]. cbn. unfold polar. now rewrite mvec_div.
Qed.

(** ** The current loop *)
Definition ring_field (comp : R -> R -> vec3) (n c p : vec3) : vec3 :=
  let d := vsub p c in let rho := axis_distance n c p in let v := comp rho (axis_height n c p) in
  vadd (vscal (vx v / rho) (vsub d (vscal (vdot n d) n))) (vadd (vscal (vy v / rho) (vcross n d)) (vscal (vz v) n)).
Lemma rot_iso M : is_rotation M -> is_isometry M.
Proof. intros (A & B & _). split; assumption. Qed.
Lemma rot_axial M v : is_rotation M -> axial M v = mvec M v.
Proof. intros (_ & _ & D). unfold axial. rewrite D. destruct (mvec M v); vring. Qed.
Lemma ring_frame comp s p : proper_axis (cl_orient s) -> (forall z, vx (comp 0 z) = 0 /\ vy (comp 0 z) = 0) ->
  cl_in_frame comp s p = Ok (ring_field comp (cl_orient s) (cl_loc s) p).
Proof.
  intros P Z. destruct (loop_rot _ P) as (M & E & R & N). rewrite (cl_frame comp s p M E). f_equal.
  pose proof (rot_iso M R) as I. unfold ring_field. cbv zeta. apply (iso_inj M _ _ I).
  rewrite <- (frame_rho M (cl_orient s) (cl_loc s) p R N), <- (frame_height M (cl_orient s) (cl_loc s) p R N).
  remember (vsub p (cl_loc s)) as d eqn:Ed. clear Ed.
  rewrite iso_back, !mvec_add, !mvec_scal, mvec_sub, mvec_scal by exact I.
  rewrite <- (rot_axial M (vcross _ _) R), <- iso_cross, N, <- (iso_dot M (cl_orient s)), N by exact I.
  generalize (mvec M d). intros [x y z]. unfold local. cbn [vx vy vz].
  destruct (Req_dec (x ^ 2 + y ^ 2) 0) as [K|K].
  - assert (X : x = 0) by nra. assert (Y : y = 0) by nra. subst.
    assert (HY : hyp2 0 0 = 0) by (unfold hyp2; replace (0 ^ 2 + 0 ^ 2) with 0 by ring; apply sqrt_0).
    rewrite HY. destruct (Z z) as [Z1 Z2]. rewrite Z1, Z2. apply vec3_eq; cbn; unfold Rdiv; ring.
  - assert (K' : 0 < x ^ 2 + y ^ 2) by nra. destruct (atan2_dir x y K') as [C S]. destruct (hyp2_pos x y K') as [HP _].
    rewrite C, S. generalize (comp (hyp2 x y) z). intros [a b c]. revert HP. generalize (hyp2 x y). intros h HP. vunf. apply vec3_eq; cbn; field; lra.
Qed.

Lemma small_rho_0 a z : small_rho a 0 z = true.
Proof.
  unfold small_rho, Rltb. destruct (Rlt_dec _ _) as [?|N]; [reflexivity|]. exfalso. apply N.
  replace (0 ^ 2 / (a ^ 2 + z ^ 2)) with 0 by (unfold Rdiv; ring). lra.
Qed.
Lemma small_rho_even a r z : small_rho a r (- z) = small_rho a r z.
Proof. unfold small_rho. replace ((- z) ^ 2) with (z ^ 2) by ring. reflexivity. Qed.
Lemma cl_A_phi_even a C r z : cl_A_phi a C r (- z) = cl_A_phi a C r z.
Proof. unfold cl_A_phi. rewrite small_rho_even. replace ((- z) ^ 2) with (z ^ 2) by ring. reflexivity. Qed.
Lemma cl_B_z_even a C r z : cl_B_z a C r (- z) = cl_B_z a C r z.
Proof. unfold cl_B_z. replace ((- z) ^ 2) with (z ^ 2) by ring. reflexivity. Qed.
Lemma cl_B_rho_odd a C r z : cl_B_rho a C r (- z) = - cl_B_rho a C r z.
Proof.
  unfold cl_B_rho. rewrite small_rho_even. replace ((- z) ^ 2) with (z ^ 2) by ring. destruct (small_rho a r z); unfold Rdiv; ring.
Qed.
Lemma iso_det_sign m : is_isometry m -> mdet m = 1 \/ mdet m = -1.
Proof. intros H. pose proof (iso_det2 m H). assert (K : (mdet m - 1) * (mdet m + 1) = 0) by nra. apply Rmult_integral in K. lra. Qed.

Lemma loop_covariant m t a I n c mu p : is_isometry m -> proper_axis n -> proper_axis (axial m n) ->
  let s := CL a I n c mu in let s' := CL a I (axial m n) (move m t c) mu in let p' := move m t p in
  loop_vector_potential s' "cartesian" p' = rmap (polar m) (loop_vector_potential s "cartesian" p) /\
  loop_flux_density s' "cartesian" p' = rmap (axial m) (loop_flux_density s "cartesian" p) /\
  loop_field s' "cartesian" p' = rmap (axial m) (loop_field s "cartesian" p).
Proof.
  intros H P P'. cbv zeta. unfold loop_field. cbn [cl_mu].
  assert (D : axis_distance (axial m n) (move m t c) (move m t p) = axis_distance n c p).
  { unfold axis_distance. rewrite move_sub, cross_ap, iso_norm by exact H. reflexivity. }
  assert (Hh : axis_height (axial m n) (move m t c) (move m t p) = mdet m * axis_height n c p).
  { unfold axis_height. rewrite move_sub. unfold axial. rewrite <- (iso_dot m n (vsub p c) H). destruct (mvec m n), (mvec m (vsub p c)); vunf; ring. }
  assert (Hd : vdot (axial m n) (mvec m (vsub p c)) = mdet m * vdot n (vsub p c)).
  { unfold axial. rewrite <- (iso_dot m n (vsub p c) H). destruct (mvec m n), (mvec m (vsub p c)); vunf; ring. }
  assert (B : loop_flux_density (CL a I (axial m n) (move m t c) mu) "cartesian" (move m t p) = rmap (axial m) (loop_flux_density (CL a I n c mu) "cartesian" p)).
  { unfold loop_flux_density; rewrite !with_loop_eq, !with_coordinates_cart by (try left; reflexivity). unfold cl_B. rewrite !ring_frame; cbn [cl_orient cl_loc cl_radius cl_mu cl_current];
    try (intros z; cbn; split; [unfold cl_B_rho; rewrite small_rho_0; unfold Rdiv; ring|reflexivity]); try assumption.
    cbn [rmap]. f_equal. unfold ring_field. cbv zeta. rewrite D, Hh, move_sub, Hd, cross_ap by exact H. cbn [vx vy vz].
    remember (vsub p c) as d eqn:Ed. rewrite !axial_add, !axial_scal, axial_sub, axial_scal.
    unfold axial. rewrite ?mvec_add, ?mvec_scal.
    destruct (iso_det_sign m H) as [E|E]; rewrite E.
    - rewrite !Rmult_1_l. generalize (mvec m d) (mvec m n) (mvec m (vcross n d)) (vdot n d). intros [] [] [] ?. vring.
    - replace (-1 * axis_height n c p) with (- axis_height n c p) by ring. rewrite cl_B_rho_odd, cl_B_z_even.
      generalize (mvec m d) (mvec m n) (mvec m (vcross n d)) (vdot n d). intros [] [] [] ?. unfold Rdiv. vring. }
  split; [|split; [exact B|]].
  - unfold loop_vector_potential; rewrite !with_coordinates_cart by reflexivity; cbn [rmap]. unfold cl_A. rewrite !ring_frame; cbn [cl_orient cl_loc cl_radius cl_mu cl_current];
    try (intros z; cbn; split; [reflexivity|unfold cl_A_phi; rewrite small_rho_0; unfold Rdiv; ring]); try assumption.
    cbn [rmap]. f_equal. unfold ring_field. cbv zeta. rewrite D, Hh, move_sub, Hd, cross_ap by exact H. cbn [vx vy vz].
    remember (vsub p c) as d eqn:Ed. unfold polar. rewrite !mvec_add, !mvec_scal, mvec_sub, mvec_scal. unfold axial.
    destruct (iso_det_sign m H) as [E|E]; rewrite E.
    - rewrite !Rmult_1_l. generalize (mvec m d) (mvec m n) (mvec m (vcross n d)) (vdot n d). intros [] [] [] ?. unfold Rdiv. vring.
    - replace (-1 * axis_height n c p) with (- axis_height n c p) by ring. rewrite cl_A_phi_even.
      generalize (mvec m d) (mvec m n) (mvec m (vcross n d)) (vdot n d). intros [] [] [] ?. unfold Rdiv. vring.
  - rewrite B. destruct (loop_flux_density (CL a I n c mu) "cartesian" p); [|reflexivity]. cbn. now rewrite axial_div.
Qed.

(** ** Line currents *)
Section Wire.
Variables (m : mat3) (t : vec3).
Hypothesis H : is_isometry m.
Local Notation g := (move m t).
Lemma move_inj p q : g p = g q -> p = q.
Proof.
  intros E. apply (iso_inj m _ _ H). unfold move in E. destruct (mvec m p), (mvec m q), t. unfold vadd in E. cbn in E.
  apply V3_inj in E. destruct E as (E1 & E2 & E3). f_equal; lra.
Qed.
Lemma udir_move a b : udir (g a) (g b) = mvec m (udir a b).
Proof. unfold udir. rewrite move_sub, iso_norm, mvec_div by exact H. reflexivity. Qed.
Lemma Xc_move a b n p : Xc (g a) (g b) (g n) (g p) = Xc a b n p.
Proof. unfold Xc. rewrite udir_move, move_sub, iso_dot by exact H. reflexivity. Qed.
Lemma dist_move a p : vnorm (vsub (g p) (g a)) = vnorm (vsub p a).
Proof. rewrite move_sub, iso_norm by exact H. reflexivity. Qed.
Lemma gA_move p a b : gA (g p) (g a) (g b) = mvec m (gA p a b).
Proof. unfold gA. rewrite !Xc_move, !dist_move, udir_move, mvec_scal. reflexivity. Qed.
Lemma gB_move p a b : gB (g p) (g a) (g b) = axial m (gB p a b).
Proof. unfold gB, tB, perp2. rewrite !Xc_move, !dist_move, udir_move, !move_sub, iso_cross, iso_dot, axial_scal by exact H. reflexivity. Qed.
Lemma wsum_move (f k : vec3 -> vec3 -> vec3) (L : vec3 -> vec3) nodes : (forall a b, k (g a) (g b) = L (f a b)) ->
  L vzero = vzero -> (forall u v, L (vadd u v) = vadd (L u) (L v)) -> wsum k (map g nodes) = L (wsum f nodes).
Proof.
  intros K Z A. induction nodes as [|a [|b l] IH]; [cbn; now rewrite Z|cbn; now rewrite Z|].
  change (vadd (k (g a) (g b)) (wsum k (map g (b :: l))) = L (vadd (f a b) (wsum f (b :: l)))). rewrite A, K, IH. reflexivity.
Qed.
Lemma axial_zero : axial m vzero = vzero.
Proof. unfold axial. rewrite mvec_zero. vring. Qed.
Lemma off_line_move p a b : off_line (g p) (g a) (g b) <-> off_line p a b.
Proof.
  unfold off_line. rewrite !move_sub, iso_cross by exact H. split; intros N E; apply N.
  - rewrite E. apply axial_zero.
  - apply (iso_inj m _ _ H). rewrite mvec_zero. unfold axial in E. destruct (mvec m (vcross (vsub b a) (vsub p a))) as [x y z].
    unfold vscal, vzero in *. cbn in E. apply V3_inj in E. destruct E as (E1 & E2 & E3). pose proof (iso_det2 m H).
    assert (D : mdet m <> 0) by (intro D; rewrite D in *; lra).
    apply Rmult_integral in E1, E2, E3. f_equal; tauto.
Qed.
Lemma off_wire_move p nodes : every_segment (off_line (g p)) (map g nodes) <-> every_segment (off_line p) nodes.
Proof.
  induction nodes as [|a [|b l] IH]; [reflexivity|reflexivity|].
  change (off_line (g p) (g a) (g b) /\ every_segment (off_line (g p)) (map g (b :: l)) <-> off_line p a b /\ every_segment (off_line p) (b :: l)).
  rewrite off_line_move, IH. reflexivity.
Qed.
Lemma hd_move nodes : nodes <> [] -> hd vzero (map g nodes) = g (hd vzero nodes).
Proof. destruct nodes; [contradiction|reflexivity]. Qed.
Lemma last_move nodes : nodes <> [] -> last (map g nodes) vzero = g (last nodes vzero).
Proof. induction nodes as [|a [|b l] IH]; [contradiction|reflexivity|]. intros _. apply IH. discriminate. Qed.
Lemma vall_eq_iff a b : vall_eq a b = true <-> a = b.
Proof.
  unfold vall_eq, Reqb. destruct a as [a1 a2 a3], b as [b1 b2 b3]. cbn.
  destruct (Req_EM_T a1 b1), (Req_EM_T a2 b2), (Req_EM_T a3 b3); cbn; split; intros E; try discriminate; try reflexivity; try (subst; reflexivity);
  apply V3_inj in E; tauto.
Qed.
Lemma vall_eq_move a b : vall_eq (g a) (g b) = vall_eq a b.
Proof.
  destruct (vall_eq a b) eqn:E.
  - apply vall_eq_iff in E. apply vall_eq_iff. congruence.
  - destruct (vall_eq (g a) (g b)) eqn:F; [|reflexivity]. apply vall_eq_iff, move_inj, vall_eq_iff in F. congruence.
Qed.

Lemma wire_electric nodes I sig mu p : nodes <> [] ->
  let s := LC nodes I sig mu in let s' := LC (map g nodes) I sig mu in
  lc_scalar_potential s' (g p) = lc_scalar_potential s p /\
  lc_electric_field s' (g p) = polar m (lc_electric_field s p) /\
  lc_current_density s' (g p) = polar m (lc_current_density s p).
Proof.
  intros N. cbv zeta.
  assert (E : lc_electric_field (LC (map g nodes) I sig mu) (g p) = polar m (lc_electric_field (LC nodes I sig mu) p)).
  { unfold lc_electric_field, n_segments, first_node, last_node. cbn [lc_nodes lc_current lc_sigma]. rewrite map_length, hd_move, last_move, vall_eq_move by exact N.
    rewrite !move_sub, !iso_norm by exact H. unfold polar.
    destruct (Nat.eqb _ 0); [|destruct (vall_eq _ _); [now rewrite mvec_zero|]]; rewrite mvec_scal, ?mvec_sub, ?mvec_div, ?mvec_sub; reflexivity. }
  split; [|split; [exact E|]].
  - unfold lc_scalar_potential, n_segments, first_node, last_node. cbn [lc_nodes lc_current lc_sigma]. rewrite map_length, hd_move, last_move, vall_eq_move by exact N.
    rewrite !move_sub, !iso_norm by exact H. reflexivity.
  - unfold lc_current_density. rewrite E. cbn [lc_sigma]. unfold polar. rewrite mvec_scal. reflexivity.
Qed.
Lemma wire_magnetic nodes I sig mu p : proper_wire nodes -> proper_wire (map g nodes) ->
  let s := LC nodes I sig mu in let s' := LC (map g nodes) I sig mu in
  lc_vector_potential s' (g p) = rmap (polar m) (lc_vector_potential s p) /\
  lc_flux_density s' (g p) = rmap (option_map (axial m)) (lc_flux_density s p) /\
  lc_magnetic_field s' (g p) = rmap (option_map (axial m)) (lc_magnetic_field s p).
Proof.
  intros P P'. cbv zeta.
  assert (B : lc_flux_density (LC (map g nodes) I sig mu) (g p) = rmap (option_map (axial m)) (lc_flux_density (LC nodes I sig mu) p)).
  { destruct (Classical_Prop.classic (every_segment (off_line p) nodes)) as [O|O].
    - rewrite !B_value; cbn [lc_nodes lc_mu lc_current]; try assumption; [|now apply off_wire_move].
      cbn. rewrite axial_scal. do 3 f_equal. apply wsum_move; [intros; apply gB_move|apply axial_zero|apply axial_add].
    - rewrite !B_none; cbn [lc_nodes]; try assumption; [reflexivity|]. now rewrite off_wire_move. }
  split; [|split; [exact B|]].
  - rewrite !A_value by assumption. cbn [lc_nodes lc_mu lc_current rmap]. f_equal. unfold polar. rewrite mvec_scal. f_equal.
    apply wsum_move; [intros; apply gA_move|apply mvec_zero|apply mvec_add].
  - unfold lc_magnetic_field. rewrite B. destruct (lc_flux_density (LC nodes I sig mu) p) as [[v|]|]; cbn; try reflexivity. now rewrite axial_div.
Qed.
End Wire.

(** ** Gravity *)
Lemma pm_covariant m t mass c p : is_isometry m ->
  let s := PM mass c in let s' := PM mass (move m t c) in let p' := move m t p in
  pm_potential s' p' = pm_potential s p /\ pm_field s' p' = polar m (pm_field s p) /\ pm_gradient s' p' = tensor m (pm_gradient s p).
Proof.
  intros H. cbv zeta. unfold pm_potential, pm_field, pm_gradient. cbn [pm_loc pm_mass]. rewrite move_sub, iso_norm by exact H.
  split; [reflexivity|]. generalize (vsub p c) as d. intros d. generalize (vnorm d). intros r. split.
  - unfold polar. destruct m as [[] [] []], d; unfold Rdiv; vring.
  - destruct H as [_ H]. destruct m as [[a b e] [a' b' e'] [a'' b'' e'']], d as [x y z]. unfold tensor.
    unfold mmul, mid in H. cbn in H. unfold vdot in H. cbn in H. injection H as H1 H2 H3 H4 H5 H6 H7 H8 H9.
    apply mat3_eq; apply vec3_eq; cbn -[pow]; unfold vdot; cbn -[pow]; unfold Rdiv; apply Rminus_diag_uniq;
    [transitivity (- G_newton * mass * (1 - (a * a + b * b + e * e)) * / r ^ 3); [ring|rewrite H1; ring]
    |transitivity (- G_newton * mass * (0 - (a * a' + b * b' + e * e')) * / r ^ 3); [ring|rewrite H2; ring]
    |transitivity (- G_newton * mass * (0 - (a * a'' + b * b'' + e * e'')) * / r ^ 3); [ring|rewrite H3; ring]
    |transitivity (- G_newton * mass * (0 - (a' * a + b' * b + e' * e)) * / r ^ 3); [ring|rewrite H4; ring]
    |transitivity (- G_newton * mass * (1 - (a' * a' + b' * b' + e' * e')) * / r ^ 3); [ring|rewrite H5; ring]
    |transitivity (- G_newton * mass * (0 - (a' * a'' + b' * b'' + e' * e'')) * / r ^ 3); [ring|rewrite H6; ring]
    |transitivity (- G_newton * mass * (0 - (a'' * a + b'' * b + e'' * e)) * / r ^ 3); [ring|rewrite H7; ring]
    |transitivity (- G_newton * mass * (0 - (a'' * a' + b'' * b' + e'' * e')) * / r ^ 3); [ring|rewrite H8; ring]
    |transitivity (- G_newton * mass * (1 - (a'' * a'' + b'' * b'' + e'' * e'')) * / r ^ 3); [ring|rewrite H9; ring]].
Qed.
Lemma gs_covariant m t R rho c xyz : is_isometry m ->
  let s := GS R rho c in let s' := GS R rho (move m t c) in let xyz' := map (move m t) xyz in
  gs_potential_grid s' xyz' = gs_potential_grid s xyz /\
  gs_field_grid s' xyz' = rmap (map (polar m)) (gs_field_grid s xyz) /\
  gs_gradient_grid s' xyz' = rmap (map (option_map (tensor m))) (gs_gradient_grid s xyz).
Proof.
  intros H. cbv zeta. rewrite !gs_potential_grid_pt, !gs_field_grid_pt, !gs_gradient_grid_pt. cbn [rmap]. rewrite !map_map.
  repeat split; f_equal; apply map_ext; intros p; destruct (pm_covariant m t (gs_mass (GS R rho c)) c p H) as (A & B & D).
  - unfold gs_potential_pt, gs_as_point_mass. cbn [gs_loc gs_radius gs_rho]. rewrite move_sub, iso_norm, <- A by exact H. reflexivity.
  - unfold gs_field_pt, gs_as_point_mass. cbn [gs_loc gs_radius gs_rho]. rewrite move_sub, iso_norm by exact H. destruct (Rltb _ _); [exact B|].
    unfold polar. rewrite mvec_scal. reflexivity.
  - unfold gs_gradient_pt, gs_as_point_mass. cbn [gs_loc gs_radius gs_rho]. rewrite move_sub, iso_norm by exact H. destruct (Reqb _ _); [reflexivity|].
    destruct (Rltb _ _); cbn; f_equal; [exact D|]. unfold tensor. destruct H as [_ H].
    transitivity (mscal (- G_newton * 4 / 3 * PI * rho) (mmul m (mtrans m))); [now rewrite H|].
    destruct m as [[] [] []]. apply mat3_eq; apply vec3_eq; cbn; unfold vdot; cbn; ring.
Qed.

(** ** Conducting / permeable sphere *)
Lemma dispatch_map {A} (sub : A -> A -> A) (f : A -> A) field vt vp : (forall a b, f (sub a b) = sub (f a) (f b)) ->
  dispatch sub field (map f vt) (map f vp) = map_fields f (dispatch sub field vt vp).
Proof.
  intros S. unfold dispatch. destruct (String.eqb field "total"); [reflexivity|]. destruct (String.eqb field "primary"); [reflexivity|].
  assert (E : map (fun ab => sub (fst ab) (snd ab)) (combine (map f vt) (map f vp)) = map f (map (fun ab => sub (fst ab) (snd ab)) (combine vt vp))).
  { revert vp. induction vt as [|a vt IH]; intros [|b vp]; try reflexivity. cbn. rewrite S, IH. reflexivity. }
  rewrite E. destruct (String.eqb field "secondary"); reflexivity.
Qed.
Lemma sph_covariant m t R c1 c0 F c eps0 dr xyz field : is_isometry m ->
  let s := SP R c1 c0 F c in let s' := SP R c1 c0 (polar m F) (move m t c) in let xyz' := map (move m t) xyz in
  sphere_potential s' xyz' field = sphere_potential s xyz field /\
  sphere_field s' xyz' field = rmap (map_fields (polar m)) (sphere_field s xyz field) /\
  sphere_flux s' xyz' field = rmap (map_fields (polar m)) (sphere_flux s xyz field) /\
  charge_density eps0 s' xyz' dr = charge_density eps0 s xyz dr.
Proof.
  intros H. cbv zeta. set (s := SP R c1 c0 F c). set (s' := SP R c1 c0 (polar m F) (move m t c)).
  assert (V : forall p, sp_V s' (move m t p) = sp_V s p).
  { intros p. unfold sp_V, s, s'; cbn. rewrite move_sub, iso_norm by exact H. unfold polar. rewrite <- mvec_opp, iso_dot by exact H. reflexivity. }
  assert (E : forall p, sp_E s' (move m t p) = polar m (sp_E s p)).
  { intros p. unfold sp_E, sp_Eout, s, s', polar, sp_cur; cbn [sp_loc sp_radius sp_F0 sp_c0 sp_c1]. rewrite move_sub, iso_norm, iso_dot by exact H.
    destruct (Rltb _ _); rewrite ?mvec_add, ?mvec_div, !mvec_scal; reflexivity. }
  assert (P : sp_primary_field s' (map (move m t) xyz) = map (polar m) (sp_primary_field s xyz)).
  { unfold sp_primary_field. rewrite !map_map. apply map_ext. intros p. unfold s, s', polar; cbn. rewrite mvec_add, mvec_zero. reflexivity. }
  assert (N : map (fun p => vnorm (vsub p (sp_loc s'))) (map (move m t) xyz) = map (fun p => vnorm (vsub p (sp_loc s))) xyz).
  { rewrite map_map. apply map_ext. intros p. unfold s, s'; cbn. now rewrite move_sub, iso_norm by exact H. }
  assert (S : forall a b, polar m (vsub a b) = vsub (polar m a) (polar m b)) by (intros; apply mvec_sub).
  split; [|split; [|split]].
  - unfold sphere_potential. rewrite !sp_total_potential_pt. cbn [rbind]. do 2 f_equal; [rewrite map_map; apply map_ext, V|].
    unfold sp_primary_potential. rewrite map_map. apply map_ext. intros p. unfold s, s', polar; cbn. rewrite move_sub, <- mvec_opp, iso_dot by exact H. reflexivity.
  - unfold sphere_field. rewrite !sp_total_field_pt. cbn [rbind rmap]. f_equal. rewrite P, <- dispatch_map by exact S. f_equal.
    rewrite !map_map. apply map_ext, E.
  - unfold sphere_flux. rewrite N, !sp_total_field_pt. cbn [sp_radius sp_c0 sp_c1 s s'].
    destruct (mask_fill _ _ _) as [sg|]; [|reflexivity]. cbn [rbind rmap]. f_equal. rewrite P, <- dispatch_map by exact S. f_equal.
    + rewrite map_map. rewrite (map_ext _ _ E). clear. revert sg. induction xyz as [|p l IH]; intros [|a sg]; try reflexivity. cbn. rewrite IH. f_equal. unfold polar. now rewrite mvec_scal.
    + rewrite !map_map. apply map_ext. intros v. unfold polar. now rewrite mvec_scal.
  - rewrite !charge_density_pt. f_equal. rewrite map_map. apply map_ext. intros p. unfold sp_rho, shell, s, s', polar, sp_cur. cbn [sp_loc sp_radius sp_F0 sp_c0 sp_c1]. rewrite move_sub, iso_norm, iso_dot by exact H. reflexivity.
Qed.
