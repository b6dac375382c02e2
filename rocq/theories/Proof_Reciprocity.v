(** Exchanging source and receiver. *)
From Coq Require Import Reals Lra Lia List String.
From Coquelicot Require Import Coquelicot.
From Verif Require Import Vec3 Cplx Numpy Model_Static Model_Gravity Model_FDEM Model_TDEM Spec_Static Proof_Static3.
Import ListNotations.
Open Scope R_scope.

Lemma vsub_swap a b : vsub a b = vopp (vsub b a).
Proof. destruct a, b; vring. Qed.
Lemma vnorm_opp v : vnorm (vopp v) = vnorm v.
Proof. unfold vnorm. f_equal. destruct v; vunf; ring. Qed.
Lemma vdiv_opp v k : vdiv (vopp v) k = vopp (vdiv v k).
Proof. destruct v. unfold vdiv, Rdiv. vring. Qed.
Lemma dist_swap a b : vnorm (vsub a b) = vnorm (vsub b a).
Proof. rewrite vsub_swap. apply vnorm_opp. Qed.

Lemma cvdot_of a v w : cvdot (cvof a v) w = (a * RtoC (vdot v w))%C.
Proof. destruct a, v, w. apply C_eq; cbn; unfold vdot; cbn; ring. Qed.
Lemma cvdot_scal a v w : cvdot (cvscal a v) w = (a * cvdot v w)%C.
Proof. destruct v, w. unfold cvdot; cbn. ring. Qed.
Lemma cvdot_add u v w : cvdot (cvadd u v) w = (cvdot u w + cvdot v w)%C.
Proof. destruct u, v, w. unfold cvdot; cbn. ring. Qed.

Lemma terms_swap f1 f2 kr h o1 o2 (k1 k2 : C) : (k2 * f1 = k1 * f2)%C ->
  (k2 * cvdot (dipole_terms f1 kr h o1) o2 = k1 * cvdot (dipole_terms f2 kr (vopp h) o2) o1)%C.
Proof.
  intros E. unfold dipole_terms. rewrite !cvdot_scal, !cvdot_add, !cvdot_of.
  assert (A : vdot (vopp h) o2 = - vdot h o2) by (destruct h, o2; vunf; ring).
  assert (B : vdot (vopp h) o1 = - vdot h o1) by (destruct h, o1; vunf; ring).
  assert (D : vdot o2 o1 = vdot o1 o2) by (destruct o1, o2; vunf; ring).
  rewrite A, B, D, !RtoC_opp, !Cmult_assoc, E. ring.
Qed.

Section Pair.
Variables (o1 o2 c1 c2 : vec3).
Lemma ed_reciprocal med I1 l1 I2 l2 :
  (RtoC (I2 * l2) * cvdot (ed_E (ED med I1 l1 o1 c1) c2) o2 = RtoC (I1 * l1) * cvdot (ed_E (ED med I2 l2 o2 c2) c1) o1)%C.
Proof.
  unfold ed_E. cbn [ed_med ed_current ed_length ed_orient ed_loc]. rewrite (vsub_swap c1 c2), vnorm_opp, vdiv_opp.
  apply terms_swap. rewrite !Cmult_assoc, <- !RtoC_mult. do 2 f_equal. unfold Rdiv. ring.
Qed.
Lemma mf_reciprocal med m1 m2 :
  (RtoC m2 * cvdot (mf_H (MDF med m1 o1 c1) c2) o2 = RtoC m1 * cvdot (mf_H (MDF med m2 o2 c2) c1) o1)%C.
Proof.
  unfold mf_H. cbn [mf_med mf_moment mf_orient mf_loc]. rewrite (vsub_swap c1 c2), vnorm_opp, vdiv_opp.
  apply terms_swap. rewrite !Cmult_assoc, <- !RtoC_mult. do 2 f_equal. unfold Rdiv. ring.
Qed.
Lemma ed_mf_reciprocal med I l m :
  (RtoC (I * l) * cvdot (mf_E (MDF med m o2 c2) c1) o1 = - (Ci * fd_omega med * fd_mu med * m) * cvdot (ed_H (ED med I l o1 c1) c2) o2)%C.
Proof.
  unfold mf_E, ed_H. cbn [mf_med mf_moment mf_orient mf_loc ed_med ed_current ed_length ed_orient ed_loc].
  rewrite (vsub_swap c2 c1), vnorm_opp, vdiv_opp, !cvdot_of. set (h := vdiv _ _). set (r := vnorm _).
  assert (A : vdot (vcross o1 (vopp h)) o2 = - vdot (vcross h o2) o1) by (destruct h, o1, o2; vunf; ring).
  rewrite A, RtoC_opp. unfold Rdiv. rewrite (RtoC_mult (I * l) (/ _)). unfold Cdiv.
  destruct (Req_dec r 0) as [Z|Z].
  - rewrite Z. replace (4 * PI * 0 ^ 2) with 0 by ring. rewrite Rinv_0.
    assert (CZ : (/ RtoC 0 = RtoC 0)%C) by (apply C_eq; cbn; unfold Rdiv; rewrite ?Rmult_0_l, ?Ropp_0; ring).
    rewrite CZ. ring.
  - rewrite RtoC_inv; [ring|]. apply Rmult_integral_contrapositive_currified; [pose proof PI_RGT_0; lra|apply pow_nonzero, Z].
Qed.
Lemma te_reciprocal med I1 l1 I2 l2 :
  (I2 * l2) * vdot (te_E (TED med I1 l1 o1 c1) c2) o2 = (I1 * l1) * vdot (te_E (TED med I2 l2 o2 c2) c1) o1.
Proof.
  unfold te_E. cbn [te_med te_current te_length te_orient te_loc]. rewrite (vsub_swap c1 c2), vnorm_opp, vdiv_opp.
  set (h := vdiv _ _). generalize (erf (td_theta med * vnorm (vsub c2 c1))). intros e. destruct h, o1, o2. vunf. unfold Rdiv. ring.
Qed.
Lemma md_reciprocal mu m1 m2 : exists b1 b2,
  mdipole_flux_density (MD m1 o1 c1 mu) "cartesian" c2 = Ok b1 /\ mdipole_flux_density (MD m2 o2 c2 mu) "cartesian" c1 = Ok b2 /\
  m2 * vdot b1 o2 = m1 * vdot b2 o1.
Proof.
  unfold mdipole_flux_density. rewrite !with_coordinates_cart by reflexivity. do 2 eexists. split; [reflexivity|]. split; [reflexivity|].
  unfold md_B. cbn [md_moment md_orient md_loc md_mu]. rewrite (vsub_swap c1 c2), vnorm_opp, vdiv_opp.
  set (h := vdiv _ _). destruct h, o1, o2. vunf. unfold Rdiv. ring.
Qed.
Lemma pc_reciprocal rho I1 I2 :
  I2 * pc_potential (point_current rho I1 c1) c2 = I1 * pc_potential (point_current rho I2 c2) c1.
Proof.
  unfold pc_potential, lc_scalar_potential, point_current, n_segments, first_node. cbn [lc_nodes List.length Nat.pred Nat.eqb lc_current lc_sigma hd].
  rewrite (dist_swap c1 c2). unfold Rdiv. ring.
Qed.
Lemma pm_reciprocal m1 m2 :
  m2 * pm_potential (PM m1 c1) c2 = m1 * pm_potential (PM m2 c2) c1 /\
  vscal m2 (pm_field (PM m1 c1) c2) = vopp (vscal m1 (pm_field (PM m2 c2) c1)).
Proof.
  unfold pm_potential, pm_field. cbn [pm_mass pm_loc]. rewrite (vsub_swap c1 c2), vnorm_opp. split; [unfold Rdiv; ring|].
  generalize (vsub c2 c1). intros d. generalize (vnorm d). intros r. destruct d. unfold Rdiv. vring.
Qed.
Lemma hs_reciprocal rho I1 I2 : vz c1 <= 0 -> vz c2 <= 0 -> exists v1 v2,
  hs_potential (HS rho I1 c1) [c2] = Ok [v1] /\ hs_potential (HS rho I2 c2) [c1] = Ok [v2] /\ I2 * v1 = I1 * v2.
Proof.
  intros A B. exists (hs_V (HS rho I1 c1) c2), (hs_V (HS rho I2 c2) c1). unfold hs_potential, any_above, existsb, Rltb.
  destruct (Rlt_dec 0 (vz c2)); [lra|]. destruct (Rlt_dec 0 (vz c1)); [lra|]. repeat split.
  unfold hs_V, hs_primary, hs_image. cbn [hs_rho hs_current hs_loc].
  unfold pc_potential, lc_scalar_potential, point_current, n_segments, first_node. cbn [lc_nodes List.length Nat.pred Nat.eqb lc_current lc_sigma hd].
  rewrite (dist_swap c1 c2). replace (vnorm (vsub c1 (mirror c2))) with (vnorm (vsub c2 (mirror c1))); [unfold Rdiv; ring|].
  unfold vnorm. f_equal. destruct c1, c2. unfold mirror. vunf. ring.
Qed.
End Pair.

(** four electrodes: the voltage between m and n for current between a and b *)
Lemma dh_reciprocal rho I a b m n : vz a <= 0 -> vz b <= 0 -> vz m <= 0 -> vz n <= 0 -> exists v,
  dh_potential (DHS rho I a b) [m] (Some [n]) = Ok [v] /\ dh_potential (DHS rho I m n) [a] (Some [b]) = Ok [v].
Proof.
  intros A B M N.
  assert (S : forall x y, hs_V (HS rho I x) y = hs_V (HS rho I y) x).
  { intros x y. unfold hs_V, hs_primary, hs_image. cbn [hs_rho hs_current hs_loc].
    unfold pc_potential, lc_scalar_potential, point_current, n_segments, first_node. cbn [lc_nodes List.length Nat.pred Nat.eqb lc_current lc_sigma hd].
    rewrite (dist_swap x y). replace (vnorm (vsub y (mirror x))) with (vnorm (vsub x (mirror y))); [reflexivity|].
    unfold vnorm. f_equal. destruct x, y. unfold mirror. vunf. ring. }
  exists (hs_V (HS rho I a) m - hs_V (HS rho I b) m - (hs_V (HS rho I a) n - hs_V (HS rho I b) n)).
  unfold dh_potential, hs_potential, any_above, existsb, Rltb.
  destruct (Rlt_dec 0 (vz a)); [lra|]. destruct (Rlt_dec 0 (vz b)); [lra|]. destruct (Rlt_dec 0 (vz m)); [lra|]. destruct (Rlt_dec 0 (vz n)); [lra|].
  cbn -[hs_V]. split; [reflexivity|]. unfold dh_sa, dh_sb. cbn [dh_rho dh_current dh_a dh_b]. do 2 f_equal.
  rewrite (S m a), (S m b), (S n a), (S n b). ring.
Qed.
