(** Fields are linear in the strength of the source. *)
From Coq Require Import Reals Lra Lia List String.
From Coquelicot Require Import Coquelicot.
From Verif Require Import Vec3 Cplx Numpy Model_Spatial Model_Static Model_Gravity Model_FDEM Model_TDEM Spec_Static Spec_Linear Proof_Static3 Proof_Symmetry Proof_Reciprocity Proof_Loop2.
Import ListNotations.
Open Scope R_scope.

Lemma cvof_comb f a b u v : cvof f (vcomb a b u v) = ccomb a b (cvof f u) (cvof f v).
Proof. destruct f, u, v. apply cvec_eq; apply C_eq; cbn; ring. Qed.
Lemma ccomb_scal f a b u v : cvscal f (ccomb a b u v) = ccomb a b (cvscal f u) (cvscal f v).
Proof. destruct u, v. apply cvec_eq; cbn; ring. Qed.
Lemma vcomb_scal f a b u v : vscal f (vcomb a b u v) = vcomb a b (vscal f u) (vscal f v).
Proof. destruct u, v. unfold vcomb. vring. Qed.
Lemma vdiv_comb f a b u v : vdiv (vcomb a b u v) f = vcomb a b (vdiv u f) (vdiv v f).
Proof. destruct u, v. unfold vcomb, vdiv, Rdiv. vring. Qed.
Lemma vdot_comb h a b u v : vdot h (vcomb a b u v) = a * vdot h u + b * vdot h v.
Proof. destruct h, u, v. unfold vcomb. vunf. ring. Qed.
Lemma vcross_comb_r h a b u v : vcross h (vcomb a b u v) = vcomb a b (vcross h u) (vcross h v).
Proof. destruct h, u, v. unfold vcomb. vring. Qed.
Lemma vcross_comb_l h a b u v : vcross (vcomb a b u v) h = vcomb a b (vcross u h) (vcross v h).
Proof. destruct h, u, v. unfold vcomb. vring. Qed.
Lemma terms_comb f kr h a b u v : dipole_terms f kr h (vcomb a b u v) = ccomb a b (dipole_terms f kr h u) (dipole_terms f kr h v).
Proof.
  unfold dipole_terms. rewrite vdot_comb. rewrite <- ccomb_scal. f_equal. rewrite cvof_comb, RtoC_plus, !RtoC_mult.
  destruct h, u, v. apply cvec_eq; cbn; ring.
Qed.
(** moving the strength into the direction *)
Lemma terms_strength (k f : C) kr h o (s : R) : (k = f * RtoC s)%C -> dipole_terms k kr h o = dipole_terms f kr h (vscal s o).
Proof.
  intros ->. unfold dipole_terms. replace (vdot h (vscal s o)) with (s * vdot h o) by (destruct h, o; vunf; ring).
  rewrite RtoC_mult. destruct h, o. apply cvec_eq; cbn; rewrite !RtoC_mult; ring.
Qed.
Lemma cvof_strength (k f : C) o (s : R) : (k = f * RtoC s)%C -> cvof k o = cvof f (vscal s o).
Proof. intros ->. destruct o. apply cvec_eq; cbn; rewrite RtoC_mult; ring. Qed.
Lemma rdiv1 x y : x / y = 1 * 1 / y * x. Proof. unfold Rdiv. ring. Qed.
Lemma rdiv1' x y : x / y = 1 / y * x. Proof. unfold Rdiv. ring. Qed.
Lemma cross_strength o h s : vcross (vscal s o) h = vscal s (vcross o h).
Proof. destruct o, h; vring. Qed.
Lemma cross_strength_r o h s : vcross h (vscal s o) = vscal s (vcross h o).
Proof. destruct o, h; vring. Qed.

Lemma ed_strength med I l o c p : let s := ED med I l o c in let u := ED med 1 1 (vscal (I * l) o) c in
  ed_A s p = ed_A u p /\ ed_E s p = ed_E u p /\ ed_H s p = ed_H u p.
Proof.
  cbv zeta. unfold ed_A, ed_E, ed_H. cbn [ed_med ed_current ed_length ed_orient ed_loc]. repeat split.
  - apply cvof_strength. rewrite (rdiv1 (I * l)), RtoC_mult. ring.
  - apply terms_strength. rewrite (rdiv1 (I * l)), RtoC_mult. ring.
  - rewrite cross_strength. apply cvof_strength. rewrite (rdiv1 (I * l)), RtoC_mult. ring.
Qed.
Lemma ed_comb med c p a b u v : let s w := ED med 1 1 w c in
  ed_A (s (vcomb a b u v)) p = ccomb a b (ed_A (s u) p) (ed_A (s v) p) /\
  ed_E (s (vcomb a b u v)) p = ccomb a b (ed_E (s u) p) (ed_E (s v) p) /\
  ed_H (s (vcomb a b u v)) p = ccomb a b (ed_H (s u) p) (ed_H (s v) p).
Proof.
  cbv zeta. unfold ed_A, ed_E, ed_H. cbn [ed_med ed_current ed_length ed_orient ed_loc].
  rewrite terms_comb, vcross_comb_l, !cvof_comb. repeat split.
Qed.
Lemma ed_linear med c p a b I l o I1 l1 o1 I2 l2 o2 : vscal (I * l) o = vcomb a b (vscal (I1 * l1) o1) (vscal (I2 * l2) o2) ->
  let s := ED med I l o c in let s1 := ED med I1 l1 o1 c in let s2 := ED med I2 l2 o2 c in
  ed_A s p = ccomb a b (ed_A s1 p) (ed_A s2 p) /\ ed_E s p = ccomb a b (ed_E s1 p) (ed_E s2 p) /\ ed_J s p = ccomb a b (ed_J s1 p) (ed_J s2 p) /\
  ed_H s p = ccomb a b (ed_H s1 p) (ed_H s2 p) /\ ed_B s p = ccomb a b (ed_B s1 p) (ed_B s2 p).
Proof.
  intros E. cbv zeta. destruct (ed_strength med I l o c p) as (A & B & D), (ed_strength med I1 l1 o1 c p) as (A1 & B1 & D1), (ed_strength med I2 l2 o2 c p) as (A2 & B2 & D2).
  unfold ed_J, ed_B. cbn [ed_med]. rewrite <- !ccomb_scal, A, B, D, A1, B1, D1, A2, B2, D2, E.
  destruct (ed_comb med c p a b (vscal (I1 * l1) o1) (vscal (I2 * l2) o2)) as (X & Y & Z). rewrite X, Y, Z. repeat split.
Qed.
Lemma mf_strength med m o c p : let s := MDF med m o c in let u := MDF med 1 (vscal m o) c in
  mf_A s p = mf_A u p /\ mf_E s p = mf_E u p /\ mf_H s p = mf_H u p.
Proof.
  cbv zeta. unfold mf_A, mf_E, mf_H. cbn [mf_med mf_moment mf_orient mf_loc]. repeat split.
  - apply cvof_strength. unfold Cdiv. ring.
  - rewrite cross_strength_r. apply cvof_strength. unfold Cdiv. ring.
  - apply terms_strength. rewrite (rdiv1' m), RtoC_mult. ring.
Qed.
Lemma mf_comb med c p a b u v : let s w := MDF med 1 w c in
  mf_A (s (vcomb a b u v)) p = ccomb a b (mf_A (s u) p) (mf_A (s v) p) /\
  mf_E (s (vcomb a b u v)) p = ccomb a b (mf_E (s u) p) (mf_E (s v) p) /\
  mf_H (s (vcomb a b u v)) p = ccomb a b (mf_H (s u) p) (mf_H (s v) p).
Proof.
  cbv zeta. unfold mf_A, mf_E, mf_H. cbn [mf_med mf_moment mf_orient mf_loc].
  rewrite terms_comb, vcross_comb_r, !cvof_comb. repeat split.
Qed.
Lemma mf_linear med c p a b m o m1 o1 m2 o2 : vscal m o = vcomb a b (vscal m1 o1) (vscal m2 o2) ->
  let s := MDF med m o c in let s1 := MDF med m1 o1 c in let s2 := MDF med m2 o2 c in
  mf_A s p = ccomb a b (mf_A s1 p) (mf_A s2 p) /\ mf_E s p = ccomb a b (mf_E s1 p) (mf_E s2 p) /\ mf_J s p = ccomb a b (mf_J s1 p) (mf_J s2 p) /\
  mf_H s p = ccomb a b (mf_H s1 p) (mf_H s2 p) /\ mf_B s p = ccomb a b (mf_B s1 p) (mf_B s2 p).
Proof.
  intros E. cbv zeta. destruct (mf_strength med m o c p) as (A & B & D), (mf_strength med m1 o1 c p) as (A1 & B1 & D1), (mf_strength med m2 o2 c p) as (A2 & B2 & D2).
  unfold mf_J, mf_B. cbn [mf_med]. rewrite <- !ccomb_scal, A, B, D, A1, B1, D1, A2, B2, D2, E.
  destruct (mf_comb med c p a b (vscal m1 o1) (vscal m2 o2)) as (X & Y & Z). rewrite X, Y, Z. repeat split.
Qed.
Lemma pw_linear med p a b m o m1 o1 m2 o2 : vscal m o = vcomb a b (vscal m1 o1) (vscal m2 o2) ->
  let s := PW med m o in let s1 := PW med m1 o1 in let s2 := PW med m2 o2 in
  pw_E s p = ccomb a b (pw_E s1 p) (pw_E s2 p) /\ pw_J s p = ccomb a b (pw_J s1 p) (pw_J s2 p) /\
  pw_B s p = ccomb a b (pw_B s1 p) (pw_B s2 p) /\ pw_H s p = ccomb a b (pw_H s1 p) (pw_H s2 p).
Proof.
  intros E. cbv zeta. unfold pw_J, pw_H. cbn [pw_med]. rewrite <- !ccomb_scal.
  assert (S : forall k w, pw_E (PW med k w) p = pw_E (PW med 1 (vscal k w)) p /\ pw_B (PW med k w) p = pw_B (PW med 1 (vscal k w)) p).
  { intros k w. unfold pw_E, pw_B. cbn [pw_med pw_amp pw_orient]. split.
    - f_equal. apply cvof_strength. ring.
    - rewrite cross_strength. apply cvof_strength. unfold Cdiv. ring. }
  destruct (S m o) as [A B], (S m1 o1) as [A1 B1], (S m2 o2) as [A2 B2]. rewrite A, B, A1, B1, A2, B2, E.
  unfold pw_E, pw_B. cbn [pw_med pw_amp pw_orient]. rewrite vcross_comb_l, !cvof_comb, ccomb_scal. repeat split.
Qed.
Lemma te_linear med c p a b I l o I1 l1 o1 I2 l2 o2 : vscal (I * l) o = vcomb a b (vscal (I1 * l1) o1) (vscal (I2 * l2) o2) ->
  let s := TED med I l o c in let s1 := TED med I1 l1 o1 c in let s2 := TED med I2 l2 o2 c in
  te_A s p = vcomb a b (te_A s1 p) (te_A s2 p) /\ te_E s p = vcomb a b (te_E s1 p) (te_E s2 p) /\ te_J s p = vcomb a b (te_J s1 p) (te_J s2 p) /\
  te_H s p = vcomb a b (te_H s1 p) (te_H s2 p) /\ te_B s p = vcomb a b (te_B s1 p) (te_B s2 p) /\
  te_dH s p = vcomb a b (te_dH s1 p) (te_dH s2 p) /\ te_dB s p = vcomb a b (te_dB s1 p) (te_dB s2 p).
Proof.
  intros E. cbv zeta. unfold te_J, te_B, te_dB. cbn [te_med]. rewrite <- !vcomb_scal.
  assert (S : forall I l o, te_A (TED med I l o c) p = te_A (TED med 1 1 (vscal (I * l) o) c) p /\ te_E (TED med I l o c) p = te_E (TED med 1 1 (vscal (I * l) o) c) p /\
     te_H (TED med I l o c) p = te_H (TED med 1 1 (vscal (I * l) o) c) p /\ te_dH (TED med I l o c) p = te_dH (TED med 1 1 (vscal (I * l) o) c) p).
  { intros J k w. unfold te_A, te_E, te_H, te_dH. cbn [te_med te_current te_length te_orient te_loc]. rewrite cross_strength.
    generalize (erf (td_theta med * vnorm (vsub p c))). intros e. generalize (vdiv (vsub p c) (vnorm (vsub p c))). intros h. generalize (vnorm (vsub p c)). intros r.
    generalize (vcross w h). intros x. destruct w, h, x. unfold Rdiv. repeat split; vring. }
  destruct (S I l o) as (A & B & D & F), (S I1 l1 o1) as (A1 & B1 & D1 & F1), (S I2 l2 o2) as (A2 & B2 & D2 & F2).
  rewrite A, B, D, F, A1, B1, D1, F1, A2, B2, D2, F2, E.
  unfold te_A, te_E, te_H, te_dH. cbn [te_med te_current te_length te_orient te_loc]. rewrite vcross_comb_l, vdot_comb, !vcomb_scal.
  generalize (vdiv (vsub p c) (vnorm (vsub p c))). intros h. generalize (vscal (I1 * l1) o1) (vscal (I2 * l2) o2). intros u v.
  assert (Q : forall k x y, vsub (vscal x (vscal (a * vdot h u + b * vdot h v) h)) (vcomb a b (vscal y u) (vscal y v)) = k -> 
     k = vcomb a b (vsub (vscal x (vscal (vdot h u) h)) (vscal y u)) (vsub (vscal x (vscal (vdot h v) h)) (vscal y v))).
  { intros k x y <-. generalize (vdot h u) (vdot h v). intros. destruct h, u, v. unfold vcomb. vring. }
  rewrite (Q _ _ _ eq_refl), vcomb_scal. repeat split. all: try reflexivity. all: rewrite ?vcomb_scal; try reflexivity.
Qed.
Lemma tp_linear med p a b m o m1 o1 m2 o2 : vscal m o = vcomb a b (vscal m1 o1) (vscal m2 o2) ->
  let s := TPW med m o in let s1 := TPW med m1 o1 in let s2 := TPW med m2 o2 in
  tp_E s p = vcomb a b (tp_E s1 p) (tp_E s2 p) /\ tp_J s p = vcomb a b (tp_J s1 p) (tp_J s2 p) /\
  tp_B s p = vcomb a b (tp_B s1 p) (tp_B s2 p) /\ tp_H s p = vcomb a b (tp_H s1 p) (tp_H s2 p).
Proof.
  intros E. cbv zeta. unfold tp_J, tp_H. cbn [tp_med]. rewrite <- vcomb_scal, <- vdiv_comb.
  assert (S : forall k w, tp_E (TPW med k w) p = tp_E (TPW med 1 (vscal k w)) p /\ tp_B (TPW med k w) p = tp_B (TPW med 1 (vscal k w)) p).
  { intros k w. unfold tp_E, tp_B. cbn [tp_med tp_amp tp_orient]. rewrite cross_strength. generalize (vcross w (V3 0 0 (-1))). intros x. destruct w, x. unfold Rdiv. split; vring. }
  destruct (S m o) as [A B], (S m1 o1) as [A1 B1], (S m2 o2) as [A2 B2]. rewrite A, B, A1, B1, A2, B2, E.
  unfold tp_E, tp_B. cbn [tp_med tp_amp tp_orient]. rewrite vcross_comb_l, !vcomb_scal. repeat split.
Qed.
Lemma md_linear mu c p a b m o m1 o1 m2 o2 : vscal m o = vcomb a b (vscal m1 o1) (vscal m2 o2) ->
  let s := MD m o c mu in let s1 := MD m1 o1 c mu in let s2 := MD m2 o2 c mu in
  mdipole_vector_potential s "cartesian" p = rcomb a b (mdipole_vector_potential s1 "cartesian" p) (mdipole_vector_potential s2 "cartesian" p) /\
  mdipole_flux_density s "cartesian" p = rcomb a b (mdipole_flux_density s1 "cartesian" p) (mdipole_flux_density s2 "cartesian" p) /\
  mdipole_field s "cartesian" p = rcomb a b (mdipole_field s1 "cartesian" p) (mdipole_field s2 "cartesian" p).
Proof.
  intros E. cbv zeta. unfold mdipole_field, mdipole_vector_potential, mdipole_flux_density. rewrite !with_coordinates_cart by reflexivity.
  cbn [md_mu rmap]. unfold rcomb. cbn [rbind].
  assert (S : forall m o, md_A (MD m o c mu) p = md_A (MD 1 (vscal m o) c mu) p /\ md_B (MD m o c mu) p = md_B (MD 1 (vscal m o) c mu) p).
  { intros k w. unfold md_A, md_B. cbn [md_moment md_orient md_loc md_mu]. generalize (vdiv (vsub p c) (vnorm (vsub p c))). intros h. destruct w, h. unfold Rdiv. split; vring. }
  destruct (S m o) as [A B], (S m1 o1) as [A1 B1], (S m2 o2) as [A2 B2]. rewrite A, B, A1, B1, A2, B2, E. rewrite <- vdiv_comb.
  unfold md_A, md_B. cbn [md_moment md_orient md_loc md_mu].
  generalize (vdiv (vsub p c) (vnorm (vsub p c))). intros h. generalize (vscal m1 o1) (vscal m2 o2). intros u v.
  assert (X : vsub (vscal (3 * vdot h (vcomb a b u v)) h) (vcomb a b u v) = vcomb a b (vsub (vscal (3 * vdot h u) h) u) (vsub (vscal (3 * vdot h v) h) v)).
  { rewrite vdot_comb. generalize (vdot h u) (vdot h v). intros. destruct h, u, v. unfold vcomb. vring. }
  rewrite X, vcross_comb_l, !vcomb_scal. repeat split.
Qed.
Lemma mp_linear mu o c p a b m1 m2 :
  let s m := MD m o c mu in
  mpole_flux_density (s (a * m1 + b * m2)) "cartesian" p = rcomb a b (mpole_flux_density (s m1) "cartesian" p) (mpole_flux_density (s m2) "cartesian" p) /\
  mpole_field (s (a * m1 + b * m2)) "cartesian" p = rcomb a b (mpole_field (s m1) "cartesian" p) (mpole_field (s m2) "cartesian" p).
Proof.
  cbv zeta. unfold mpole_field, mpole_flux_density. rewrite !with_coordinates_cart by reflexivity. cbn [md_mu rmap]. unfold rcomb. cbn [rbind].
  unfold mp_B. cbn [md_moment md_orient md_loc md_mu]. rewrite <- vdiv_comb. generalize (vdiv (vsub p c) (vnorm (vsub p c))). intros h.
  assert (X : forall k, vscal ((a * m1 + b * m2) * mu / k) h = vcomb a b (vscal (m1 * mu / k) h) (vscal (m2 * mu / k) h)) by (intros k; destruct h; unfold vcomb, Rdiv; vring).
  rewrite X. repeat split.
Qed.
Lemma frame_comb s1 s2 s3 F1 F2 F3 p a b : cl_orient s1 = cl_orient s3 -> cl_orient s2 = cl_orient s3 -> cl_loc s1 = cl_loc s3 -> cl_loc s2 = cl_loc s3 ->
  (forall r z, F3 r z = vcomb a b (F1 r z) (F2 r z)) ->
  cl_in_frame F3 s3 p = rcomb a b (cl_in_frame F1 s1 p) (cl_in_frame F2 s2 p).
Proof.
  intros O1 O2 L1 L2 E. destruct (rotation_matrix_v (cl_orient s3) (V3 0 0 1) default_tol) as [M|] eqn:R.
  - rewrite (cl_frame F1 s1 p M), (cl_frame F2 s2 p M), (cl_frame F3 s3 p M) by congruence. rewrite L1, L2. unfold rcomb. cbn [rbind]. f_equal.
    generalize (mvec M (vsub p (cl_loc s3))). intros q. unfold local. rewrite E. generalize (F1 (hyp2 (vx q) (vy q)) (vz q)) (F2 (hyp2 (vx q) (vy q)) (vz q)). intros u v.
    generalize (atan2 (vy q) (vx q)). intros t. destruct M as [[] [] []], u, v. unfold vcomb. vring.
  - unfold cl_in_frame. rewrite O1, O2, R. reflexivity.
Qed.
Lemma loop_linear rad n c mu p a b I1 I2 :
  let s I := CL rad I n c mu in
  loop_vector_potential (s (a * I1 + b * I2)) "cartesian" p = rcomb a b (loop_vector_potential (s I1) "cartesian" p) (loop_vector_potential (s I2) "cartesian" p) /\
  loop_flux_density (s (a * I1 + b * I2)) "cartesian" p = rcomb a b (loop_flux_density (s I1) "cartesian" p) (loop_flux_density (s I2) "cartesian" p) /\
  loop_field (s (a * I1 + b * I2)) "cartesian" p = rcomb a b (loop_field (s I1) "cartesian" p) (loop_field (s I2) "cartesian" p).
Proof.
  cbv zeta. unfold loop_field, loop_vector_potential, loop_flux_density. rewrite !with_loop_eq, !with_coordinates_cart by (try left; reflexivity).
  assert (B : cl_B (CL rad (a * I1 + b * I2) n c mu) p = rcomb a b (cl_B (CL rad I1 n c mu) p) (cl_B (CL rad I2 n c mu) p)).
  { unfold cl_B. apply frame_comb; try reflexivity. intros r z. cbn [cl_radius cl_mu cl_current]. unfold vcomb. apply vec3_eq; cbn -[cl_B_rho cl_B_z].
    - unfold cl_B_rho. destruct (small_rho rad r z); unfold Rdiv; ring.
    - ring.
    - unfold cl_B_z, Rdiv. ring. }
  split; [|split; [exact B|]].
  - unfold cl_A. apply frame_comb; try reflexivity. intros r z. cbn [cl_radius cl_mu cl_current]. unfold vcomb. apply vec3_eq; cbn -[cl_A_phi]; try ring.
    unfold cl_A_phi. destruct (small_rho rad r z); unfold Rdiv; ring.
  - rewrite B. cbn [cl_mu]. destruct (cl_B (CL rad I1 n c mu) p) as [u|], (cl_B (CL rad I2 n c mu) p) as [v|]; cbn -[vcomb]; try reflexivity. now rewrite vdiv_comb.
Qed.
Lemma wire_linear nodes sig mu p a b I1 I2 :
  let s I := LC nodes I sig mu in let I := a * I1 + b * I2 in
  lc_scalar_potential (s I) p = a * lc_scalar_potential (s I1) p + b * lc_scalar_potential (s I2) p /\
  lc_electric_field (s I) p = vcomb a b (lc_electric_field (s I1) p) (lc_electric_field (s I2) p) /\
  lc_current_density (s I) p = vcomb a b (lc_current_density (s I1) p) (lc_current_density (s I2) p) /\
  lc_vector_potential (s I) p = rcomb a b (lc_vector_potential (s I1) p) (lc_vector_potential (s I2) p) /\
  lc_flux_density (s I) p = rocomb a b (lc_flux_density (s I1) p) (lc_flux_density (s I2) p) /\
  lc_magnetic_field (s I) p = rocomb a b (lc_magnetic_field (s I1) p) (lc_magnetic_field (s I2) p).
Proof.
  cbv zeta.
  assert (E : lc_electric_field (LC nodes (a * I1 + b * I2) sig mu) p = vcomb a b (lc_electric_field (LC nodes I1 sig mu) p) (lc_electric_field (LC nodes I2 sig mu) p)).
  { unfold lc_electric_field, n_segments, first_node, last_node. cbn [lc_nodes lc_current lc_sigma].
    destruct (Nat.eqb _ _); [|destruct (vall_eq _ _); [unfold vcomb; vring|]]; 
    match goal with |- vscal _ ?v = _ => generalize v; intros []; unfold vcomb, Rdiv; vring end. }
  assert (B : lc_flux_density (LC nodes (a * I1 + b * I2) sig mu) p = rocomb a b (lc_flux_density (LC nodes I1 sig mu) p) (lc_flux_density (LC nodes I2 sig mu) p)).
  { unfold lc_flux_density, rocomb. cbn [lc_nodes lc_current lc_mu]. destruct (sum_segments_B p (segments nodes) (Some vzero)) as [[v|]|]; cbn -[vcomb]; try reflexivity.
    do 2 f_equal. destruct v; unfold vcomb, Rdiv; vring. }
  split; [|split; [exact E|split; [|split; [|split; [exact B|]]]]].
  - unfold lc_scalar_potential, n_segments, first_node, last_node. cbn [lc_nodes lc_current lc_sigma]. destruct (Nat.eqb _ _); [|destruct (vall_eq _ _)]; unfold Rdiv; ring.
  - unfold lc_current_density. rewrite E. cbn [lc_sigma]. apply vcomb_scal.
  - unfold lc_vector_potential, rcomb. cbn [lc_nodes lc_current lc_mu]. destruct (sum_segments _ (segments nodes) vzero) as [v|]; cbn -[vcomb]; try reflexivity.
    f_equal. destruct v; unfold vcomb, Rdiv; vring.
  - unfold lc_magnetic_field. rewrite B. cbn [lc_mu]. destruct (lc_flux_density (LC nodes I1 sig mu) p) as [[u|]|], (lc_flux_density (LC nodes I2 sig mu) p) as [[v|]|]; cbn -[vcomb]; try reflexivity. now rewrite vdiv_comb.
Qed.
Lemma pm_linear c p a b m1 m2 : let s m := PM m c in let m := a * m1 + b * m2 in
  pm_potential (s m) p = a * pm_potential (s m1) p + b * pm_potential (s m2) p /\
  pm_field (s m) p = vcomb a b (pm_field (s m1) p) (pm_field (s m2) p) /\
  pm_gradient (s m) p = madd (mscal a (pm_gradient (s m1) p)) (mscal b (pm_gradient (s m2) p)).
Proof.
  cbv zeta. unfold pm_potential, pm_field, pm_gradient. cbn [pm_mass pm_loc]. generalize (vsub p c). intros d. generalize (vnorm d). intros r.
  split; [unfold Rdiv; ring|]. split.
  - unfold vcomb, Rdiv. destruct d. vring.
  - destruct d. apply mat3_eq; unfold Rdiv; vring.
Qed.
