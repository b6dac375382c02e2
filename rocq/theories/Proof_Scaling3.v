(** Similitude: gravity, spheres, loops and dipoles on a half-space. *)
From Coq Require Import Reals Lra Lia String List.
From Coquelicot Require Import Coquelicot.
From Verif Require Import Vec3 Cplx Numpy Model_Spatial Model_Prism Model_Static Model_Gravity Model_FDEM Model_TDEM Spec_Static Spec_Scaling
  Proof_FDEM Proof_Loop2 Proof_Sphere Proof_Gravity Proof_Scaling Proof_Scaling2.
Import ListNotations.
Open Scope R_scope.

Section Scale.
Variable a : R.
Hypothesis A : 0 < a.
Notation sc := (vscal a).

(** gravity *)
Lemma idiv k r : k / (a * r) = / a * (k / r).
Proof. unfold Rdiv. rewrite Rinv_mult. ring. Qed.
Lemma pm_scale m c p :
  pm_potential (PM m (sc c)) (sc p) = / a * pm_potential (PM m c) p /\
  pm_field (PM m (sc c)) (sc p) = vscal (/ a ^ 2) (pm_field (PM m c) p) /\
  pm_gradient (PM m (sc c)) (sc p) = mscal (/ a ^ 3) (pm_gradient (PM m c) p).
Proof.
  unfold pm_potential, pm_field, pm_gradient. cbn [pm_mass pm_loc]. rewrite sub_scale, norm_scale by exact A.
  pose proof (hat_scale a A (vsub p c)) as H. unfold vdiv in H. rewrite H. rewrite !Rpow_mult_distr.
  split; [apply idiv|]. generalize (V3 (vx (vsub p c) / vnorm (vsub p c)) (vy (vsub p c) / vnorm (vsub p c)) (vz (vsub p c) / vnorm (vsub p c))). intros h.
  split; [apply vec3_eq; vunf; rewrite inv_scale; reflexivity|].
  apply mat3_eq; apply vec3_eq; unfold mscal; vunf; rewrite inv_scale; reflexivity.
Qed.
Lemma gs_mass_scale r rho c : gs_mass (GS (a * r) rho c) = a ^ 3 * gs_mass (GS r rho c).
Proof. unfold gs_mass. cbn. ring. Qed.
Lemma ltb_scale x y : Rltb (a * x) (a * y) = Rltb x y.
Proof. unfold Rltb. destruct (Rlt_dec (a * x) (a * y)), (Rlt_dec x y); try reflexivity; exfalso; nra. Qed.
Lemma leb_scale x y : Rleb (a * x) (a * y) = Rleb x y.
Proof. unfold Rleb. destruct (Rle_dec (a * x) (a * y)), (Rle_dec x y); try reflexivity; exfalso; nra. Qed.
Lemma eqb_scale x y : Reqb (a * x) (a * y) = Reqb x y.
Proof. unfold Reqb. destruct (Req_EM_T (a * x) (a * y)), (Req_EM_T x y); try reflexivity; exfalso; [apply n; nra|apply n; now subst]. Qed.
Lemma pm_mass_scale k m c p :
  pm_potential (PM (k * m) c) p = k * pm_potential (PM m c) p /\
  pm_field (PM (k * m) c) p = vscal k (pm_field (PM m c) p) /\
  pm_gradient (PM (k * m) c) p = mscal k (pm_gradient (PM m c) p).
Proof.
  unfold pm_potential, pm_field, pm_gradient. cbn [pm_mass pm_loc]. split; [unfold Rdiv; ring|split].
  - apply vec3_eq; vunf; unfold Rdiv; ring.
  - apply mat3_eq; apply vec3_eq; unfold mscal; vunf; unfold Rdiv; ring.
Qed.
Lemma gs_scale r rho c pts :
  gs_potential_grid (GS (a * r) rho (sc c)) (map sc pts) = rmap (map (Rmult (a ^ 2))) (gs_potential_grid (GS r rho c) pts) /\
  gs_field_grid (GS (a * r) rho (sc c)) (map sc pts) = rmap (map (vscal a)) (gs_field_grid (GS r rho c) pts) /\
  gs_gradient_grid (GS (a * r) rho (sc c)) (map sc pts) = gs_gradient_grid (GS r rho c) pts.
Proof.
  rewrite !gs_potential_grid_pt, !gs_field_grid_pt, !gs_gradient_grid_pt. cbn [rmap rbind]. rewrite !map_map.
  assert (M : gs_as_point_mass (GS (a * r) rho (sc c)) = PM (a ^ 3 * gs_mass (GS r rho c)) (sc c)) by (unfold gs_as_point_mass, gs_mass; cbn; f_equal; ring).
  assert (M' : gs_as_point_mass (GS r rho c) = PM (gs_mass (GS r rho c)) c) by reflexivity.
  repeat split; f_equal; apply map_ext; intros p.
  - unfold gs_potential_pt. rewrite M, M'. cbn [gs_radius gs_loc gs_rho]. rewrite sub_scale, norm_scale, ltb_scale by exact A. destruct (Rltb _ _).
    + rewrite (proj1 (pm_mass_scale _ _ _ _)), (proj1 (pm_scale _ _ _)). field. lra.
    + ring.
  - unfold gs_field_pt. rewrite M, M'. cbn [gs_radius gs_loc gs_rho]. rewrite sub_scale, norm_scale, ltb_scale by exact A. destruct (Rltb _ _).
    + rewrite (proj1 (proj2 (pm_mass_scale _ _ _ _))), (proj1 (proj2 (pm_scale _ _ _))), vscal_vscal. f_equal. field. lra.
    + rewrite !vscal_vscal. f_equal. ring.
  - unfold gs_gradient_pt. rewrite M, M'. cbn [gs_radius gs_loc gs_rho]. rewrite sub_scale, norm_scale, ltb_scale, eqb_scale by exact A. destruct (Reqb _ _); [reflexivity|]. destruct (Rltb _ _); [|reflexivity].
    f_equal. rewrite (proj2 (proj2 (pm_mass_scale _ _ _ _))), (proj2 (proj2 (pm_scale _ _ _))).
    generalize (pm_gradient (PM (gs_mass (GS r rho c)) c) p). intros m. apply mat3_eq; apply vec3_eq; unfold mscal; vunf; field; lra.
Qed.

(** spheres in a uniform field *)
Lemma sp_pot_scale r c1 c0 F c pts :
  sp_total_potential (SP (a * r) c1 c0 F (sc c)) (map sc pts) = rmap (map (Rmult a)) (sp_total_potential (SP r c1 c0 F c) pts) /\
  sp_primary_potential (SP (a * r) c1 c0 F (sc c)) (map sc pts) = map (Rmult a) (sp_primary_potential (SP r c1 c0 F c) pts).
Proof.
  split.
  - rewrite !sp_total_potential_pt. cbn [rmap rbind]. rewrite !map_map. f_equal. apply map_ext. intros p. unfold sp_V, sp_cur. cbn [sp_radius sp_c1 sp_c0 sp_F0 sp_loc].
    rewrite sub_scale, norm_scale, ltb_scale by exact A.
    replace (vdot (sc (vsub p c)) (vopp F)) with (a * vdot (vsub p c) (vopp F)) by (destruct (vsub p c), F; vunf; ring).
    destruct (Rltb _ _); [|unfold Rdiv; ring]. rewrite !Rpow_mult_distr.
    replace ((c1 - c0) / (c1 + 2 * c0) * (a ^ 3 * r ^ 3) / (a ^ 3 * vnorm (vsub p c) ^ 3)) with ((c1 - c0) / (c1 + 2 * c0) * r ^ 3 / vnorm (vsub p c) ^ 3).
    + ring.
    + rewrite inv_scale. unfold Rdiv. generalize (/ (c1 + 2 * c0)) (/ vnorm (vsub p c) ^ 3). intros u v. field. lra.
  - unfold sp_primary_potential. cbn [sp_F0 sp_loc]. rewrite !map_map. apply map_ext. intros p. rewrite sub_scale. destruct (vsub p c), F. vunf. ring.
Qed.
Lemma dispatch_scale k field : forall vt vp, dispatch Rminus field (map (Rmult k) vt) (map (Rmult k) vp) =
  match dispatch Rminus field vt vp with One v => One (map (Rmult k) v) | Three t p s => Three (map (Rmult k) t) (map (Rmult k) p) (map (Rmult k) s) end.
Proof.
  intros vt vp. assert (D : map (fun ab => fst ab - snd ab) (combine (map (Rmult k) vt) (map (Rmult k) vp)) = map (Rmult k) (map (fun ab => fst ab - snd ab) (combine vt vp))) by apply zip_sub_scale.
  unfold dispatch. rewrite D. destruct (String.eqb field "total"); [reflexivity|]. destruct (String.eqb field "primary"); [reflexivity|]. destruct (String.eqb field "secondary"); reflexivity.
Qed.
Lemma sphere_pot_scale r c1 c0 F c pts field :
  sphere_potential (SP (a * r) c1 c0 F (sc c)) (map sc pts) field =
  rmap (fun f => match f with One v => One (map (Rmult a) v) | Three t p s => Three (map (Rmult a) t) (map (Rmult a) p) (map (Rmult a) s) end)
    (sphere_potential (SP r c1 c0 F c) pts field).
Proof.
  unfold sphere_potential. destruct (sp_pot_scale r c1 c0 F c pts) as (E1 & E2). rewrite E1, E2. destruct (sp_total_potential (SP r c1 c0 F c) pts); [|reflexivity].
  cbn [rmap rbind]. f_equal. apply dispatch_scale.
Qed.
Lemma charge_scale eps0 r c1 c0 F c pts dr :
  charge_density eps0 (SP (a * r) c1 c0 F (sc c)) (map sc pts) (option_map (Rmult a) dr) = charge_density eps0 (SP r c1 c0 F c) pts dr.
Proof.
  rewrite !charge_density_pt, map_map. f_equal. apply map_ext. intros p. unfold sp_rho, shell, sp_cur. cbn [sp_radius sp_c1 sp_c0 sp_F0 sp_loc]. rewrite sub_scale, norm_scale by exact A.
  set (d := match dr with None => 5 / 100 * r | Some d => d end).
  replace (match option_map (Rmult a) dr with None => 5 / 100 * (a * r) | Some d => d end) with (a * d) by (unfold d; destruct dr; cbn; ring).
  replace (a * r + 1 / 2 * (a * d)) with (a * (r + 1 / 2 * d)) by ring. replace (a * r - 1 / 2 * (a * d)) with (a * (r - 1 / 2 * d)) by ring.
  rewrite !ltb_scale. destruct (_ && _)%bool; [|reflexivity].
  replace (vdot (sc (vsub p c)) F) with (a * vdot (vsub p c) F) by (destruct (vsub p c), F; vunf; ring).
  rewrite idiv. unfold Rdiv. generalize (/ (c1 + 2 * c0)) (/ vnorm (vsub p c)). intros u v. field. lra.
Qed.

(** centre of a loop on a half-space *)
Lemma loop_k_scale f sg mu f' sg' mu' : a ^ 2 * (f' * mu' * sg') = f * mu * sg ->
  csqrt (- Ci * RtoC (2 * PI * f) * RtoC mu * RtoC sg)%C = (RtoC a * csqrt (- Ci * RtoC (2 * PI * f') * RtoC mu' * RtoC sg'))%C.
Proof.
  intros E. rewrite <- csqrt_scale by exact A. f_equal.
  replace (- Ci * RtoC (2 * PI * f) * RtoC mu * RtoC sg)%C with (- Ci * RtoC (2 * PI * (f * mu * sg)))%C by (rewrite !RtoC_mult; ring). rewrite <- E. rewrite !RtoC_mult. ring.
Qed.
Lemma Cinv_0' : (/ RtoC 0 = RtoC 0)%C.
Proof. apply C_eq; cbn; unfold Rdiv; ring. Qed.
Lemma Cinv_mult' (x y : C) : (/ (x * y) = / x * / y)%C.
Proof.
  destruct (Ceq_dec x 0) as [->|X]; [rewrite Cmult_0_l, Cinv_0'; ring|]. destruct (Ceq_dec y 0) as [->|Y]; [rewrite Cmult_0_r, Cinv_0'; ring|].
  field. split; assumption.
Qed.
Lemma floop_scale f sg mu f' sg' mu' r I n sec : a ^ 2 * (f' * mu' * sg') = f * mu * sg ->
  loop_hz f' sg' mu' (a * r) I n sec = (RtoC (/ a) * loop_hz f sg mu r I n sec)%C.
Proof.
  intros E. unfold loop_hz. cbv zeta. rewrite (loop_k_scale _ _ _ _ _ _ E). set (k := csqrt _).
  assert (RA : RtoC a <> 0%C) by (apply RtoC_neq; lra).
  replace (- Ci * k * RtoC (a * r))%C with (- Ci * (RtoC a * k) * RtoC r)%C by (rewrite RtoC_mult; ring).
  generalize (cexp (- Ci * (RtoC a * k) * RtoC r)%C). intros e.
  assert (H : (- RtoC I / (k ^ 2 * RtoC (a * r) ^ 3) * (3 - (3 + 3 * Ci * k * RtoC (a * r) - k ^ 2 * RtoC (a * r) ^ 2) * e)
    = RtoC (/ a) * (- RtoC I / ((RtoC a * k) ^ 2 * RtoC r ^ 3) * (3 - (3 + 3 * Ci * (RtoC a * k) * RtoC r - (RtoC a * k) ^ 2 * RtoC r ^ 2) * e)))%C).
  { rewrite RtoC_inv by lra. rewrite RtoC_mult. unfold Cdiv.
    replace (k ^ 2 * (RtoC a * RtoC r) ^ 3)%C with (RtoC a * ((RtoC a * k) ^ 2 * RtoC r ^ 3))%C by (cbn; ring). rewrite (Cinv_mult' (RtoC a)). cbn; ring. }
  destruct sec; rewrite H; [|ring].
  replace (I / 2 / (a * r)) with (/ a * (I / 2 / r)) by (symmetry; apply idiv). rewrite (RtoC_mult (/ a)). ring.
Qed.

(** magnetic dipole on a half-space *)
Section Half.
Variables (iv kv : nat -> C -> C) (mu_0 : R).
Lemma mh_k_scale m m' mo o c c' : same_induction a m m' -> fd_mu m' = fd_mu m -> fd_mu m <> 0 ->
  (mh_k mu_0 (MH m mo o c) = RtoC a * mh_k mu_0 (MH m' mo o c'))%C.
Proof.
  intros (Q & I & D) MU M0. unfold mh_k, fd_sigma_hat, sigma_hat, omega. cbn [mh_med]. rewrite Q, MU in *.
  assert (I' : a ^ 2 * (fd_freq m' * fd_sigma m') = fd_freq m * fd_sigma m) by (apply (Rmult_eq_reg_r (fd_mu m)); [lra|exact M0]).
  rewrite <- csqrt_scale by exact A. f_equal. destruct (is_True (fd_qs m)) eqn:T.
  - replace (- Ci * RtoC (2 * PI * fd_freq m) * RtoC mu_0 * RtoC (fd_sigma m))%C with (- Ci * RtoC (2 * PI * mu_0 * (fd_freq m * fd_sigma m)))%C by (rewrite !RtoC_mult; ring).
    rewrite <- I', !RtoC_mult. ring.
  - assert (N : fd_qs m <> PyTrue) by (intro E; rewrite E in T; discriminate). specialize (D N).
    assert (D' : a ^ 2 * (fd_freq m' ^ 2 * fd_eps m') = fd_freq m ^ 2 * fd_eps m) by (apply (Rmult_eq_reg_r (fd_mu m)); [lra|exact M0]).
    replace (- Ci * RtoC (2 * PI * fd_freq m) * RtoC mu_0 * (RtoC (fd_sigma m) + Ci * RtoC (2 * PI * fd_freq m) * RtoC (fd_eps m)))%C
      with (- Ci * RtoC (2 * PI * mu_0 * (fd_freq m * fd_sigma m)) - Ci * Ci * RtoC ((2 * PI) ^ 2 * mu_0 * (fd_freq m ^ 2 * fd_eps m)))%C by (cbn [pow]; rewrite !RtoC_mult; ring).
    rewrite <- I', <- D'. cbn [pow]. rewrite !RtoC_mult. ring.
Qed.
Section Pieces.
Variables (k : C) (r : R).
Hypotheses (K : k <> 0%C) (R0 : 0 < r).
Let RA : RtoC a <> 0%C. Proof. apply RtoC_neq; lra. Qed.
Let RR : RtoC r <> 0%C. Proof. apply RtoC_neq; lra. Qed.
Ltac piece f := unfold f; replace (- Ci * k * RtoC (a * r))%C with (- Ci * (RtoC a * k) * RtoC r)%C by (rewrite RtoC_mult; ring);
  generalize (cexp (- Ci * (RtoC a * k) * RtoC r)%C); intros e; rewrite RtoC_inv by (apply pow_nonzero; lra); cbn [pow cpow]; rewrite !RtoC_mult; field; repeat split; assumption.
Lemma hz_piece : mh_hz k (a * r) = (RtoC (/ a ^ 3) * mh_hz (RtoC a * k) r)%C.
Proof. piece mh_hz. Qed.
Lemma phi_piece : mh_phi k (a * r) = (RtoC (/ a ^ 2) * mh_phi (RtoC a * k) r)%C.
Proof. piece mh_phi. Qed.
Lemma dphi_piece : mh_dphi_dr k (a * r) = (RtoC (/ a ^ 3) * mh_dphi_dr (RtoC a * k) r)%C.
Proof. piece mh_dphi_dr. Qed.
End Pieces.
Lemma mh_scale m m' mo o c p sec : same_induction a m m' -> fd_mu m' = fd_mu m -> fd_mu m <> 0 ->
  mh_k mu_0 (MH m' mo o (sc c)) <> 0%C -> (vx p <> vx c \/ vy p <> vy c) ->
  mh_H iv kv mu_0 (MH m' mo o (sc c)) sec (sc p) = cvscal (RtoC (/ a ^ 3)) (mh_H iv kv mu_0 (MH m mo o c) sec p).
Proof.
  intros S MU M0 K P. unfold mh_H. cbn [mh_orient mh_moment mh_loc]. rewrite (mh_k_scale m m' mo o c (sc c) S MU M0).
  set (k := mh_k mu_0 (MH m' mo o (sc c))) in *. clearbody k.
  replace (vx (sc p) - vx (sc c)) with (a * (vx p - vx c)) by (vunf; ring). replace (vy (sc p) - vy (sc c)) with (a * (vy p - vy c)) by (vunf; ring).
  set (x := vx p - vx c). set (y := vy p - vy c).
  assert (XY : 0 < x ^ 2 + y ^ 2) by (assert (x <> 0 \/ y <> 0) as [X|Y] by (unfold x, y; destruct P; [left|right]; lra); pose proof (pow2_ge_0 x); pose proof (pow2_ge_0 y); [pose proof (pow2_gt_0 x X)|pose proof (pow2_gt_0 y Y)]; lra).
  change (sqrt ((a * x) ^ 2 + (a * y) ^ 2)) with (hyp2 (a * x) (a * y)). change (sqrt (x ^ 2 + y ^ 2)) with (hyp2 x y). rewrite hyp2_scale, atan2_scale by exact A.
  destruct (hyp2_pos x y XY) as (R0 & _). set (r := hyp2 x y) in *. clearbody r x y.
  replace (Ci * k * RtoC (a * r) / 2)%C with (Ci * (RtoC a * k) * RtoC r / 2)%C by (rewrite RtoC_mult; unfold Cdiv; ring).
  generalize (iv 1 (Ci * (RtoC a * k) * RtoC r / 2)%C * kv 1 (Ci * (RtoC a * k) * RtoC r / 2)%C - iv 2 (Ci * (RtoC a * k) * RtoC r / 2)%C * kv 2 (Ci * (RtoC a * k) * RtoC r / 2)%C)%C. intros D.
  rewrite hz_piece, phi_piece, dphi_piece by assumption.
  generalize (mh_hz (RtoC a * k)%C r) (mh_phi (RtoC a * k)%C r) (mh_dphi_dr (RtoC a * k)%C r) (cos (atan2 y x)) (sin (atan2 y x)). intros hz ph dp co si.
  assert (RA : RtoC a <> 0%C) by (apply RtoC_neq; lra). assert (RR : RtoC r <> 0%C) by (apply RtoC_neq; lra).
  assert (I3 : RtoC (/ a ^ 3) = (/ RtoC a * / RtoC a * / RtoC a)%C) by (rewrite RtoC_inv by (apply pow_nonzero; lra); cbn [pow]; rewrite !RtoC_mult; field; exact RA).
  assert (I2 : RtoC (/ a ^ 2) = (/ RtoC a * / RtoC a)%C) by (rewrite RtoC_inv by (apply pow_nonzero; lra); cbn [pow]; rewrite !RtoC_mult; field; exact RA).
  assert (Q1 : forall s, RtoC (s * (-1 / (a * r) ^ 3)) = (RtoC (/ a ^ 3) * RtoC (s * (-1 / r ^ 3)))%C) by (intros s; rewrite <- RtoC_mult; f_equal; field; lra).
  assert (Q2 : forall s, RtoC (s * (1 / (a * r) ^ 3) * (a * x) * (a * y)) = (RtoC (/ a) * RtoC (s * (1 / r ^ 3) * x * y))%C) by (intros s; rewrite <- RtoC_mult; f_equal; field; lra).
  rewrite !Q1, !Q2, I2, I3, RtoC_inv by lra.
  replace (RtoC ((a * x) ^ 2)) with (RtoC a * RtoC a * RtoC (x ^ 2))%C by (rewrite <- !RtoC_mult; f_equal; ring).
  replace (RtoC ((a * y) ^ 2)) with (RtoC a * RtoC a * RtoC (y ^ 2))%C by (rewrite <- !RtoC_mult; f_equal; ring).
  replace (RtoC ((a * x) ^ 2 * (a * r))) with (RtoC a * RtoC a * RtoC a * RtoC (x ^ 2 * r))%C by (rewrite <- !RtoC_mult; f_equal; ring).
  replace (RtoC ((a * y) ^ 2 * (a * r))) with (RtoC a * RtoC a * RtoC a * RtoC (y ^ 2 * r))%C by (rewrite <- !RtoC_mult; f_equal; ring).
  replace (3 * (a * x) * (vx o * (a * x) + vy o * (a * y)) / (a * r) ^ 5 - vx o / (a * r) ^ 3) with (/ a ^ 3 * (3 * x * (vx o * x + vy o * y) / r ^ 5 - vx o / r ^ 3)) by (field; lra).
  replace (3 * (a * y) * (vx o * (a * x) + vy o * (a * y)) / (a * r) ^ 5 - vy o / (a * r) ^ 3) with (/ a ^ 3 * (3 * y * (vx o * x + vy o * y) / r ^ 5 - vy o / r ^ 3)) by (field; lra).
  replace (- vz o / (a * r) ^ 3) with (/ a ^ 3 * (- vz o / r ^ 3)) by (field; lra).
  rewrite !(RtoC_mult (/ a ^ 3)), I3, !(RtoC_mult a).
  generalize (RtoC (vx o * (-1 / r ^ 3))) (RtoC (vy o * (-1 / r ^ 3))) (RtoC (vx o * (1 / r ^ 3) * x * y)) (RtoC (vy o * (1 / r ^ 3) * x * y)). intros c1 c2 c3 c4.
  generalize (RtoC (3 * x * (vx o * x + vy o * y) / r ^ 5 - vx o / r ^ 3)) (RtoC (3 * y * (vx o * x + vy o * y) / r ^ 5 - vy o / r ^ 3)) (RtoC (- vz o / r ^ 3)). intros s1 s2 s3.
  generalize (RtoC (x ^ 2)) (RtoC (y ^ 2)) (RtoC (x ^ 2 * r)) (RtoC (y ^ 2 * r)) (RtoC (vz o * co)) (RtoC (vz o * si)). intros d1 d2 d3 d4 d5 d6.
  cbn [pow cpow].
  destruct (Reqb (vz o) 0), (Reqb (vx o) 0), (Reqb (vy o) 0), sec; apply cvec_eq; cbn [cvx cvy cvz cvscal cvzero]; field; repeat split; assumption.
Qed.
End Half.

(** transients on a half-space *)
Lemma tloop_scale m m' r I n : same_diffusion a m m' -> 0 < r ->
  tloop_hz (td_time m') (td_sigma m') (td_mu m') (a * r) I n = / a * tloop_hz (td_time m) (td_sigma m) (td_mu m) r I n /\
  tloop_dbz (td_time m') (td_sigma m') (td_mu m') (a * r) I n = td_sigma m / td_sigma m' / a ^ 3 * tloop_dbz (td_time m) (td_sigma m) (td_mu m) r I n.
Proof.
  intros S R0. pose proof (theta_scale a A m m' r S) as T. unfold td_theta in T. unfold tloop_hz, tloop_dbz. cbv zeta. rewrite T.
  destruct S as (? & ? & G & G' & ? & ? & _).
  generalize (theta (td_time m) (td_sigma m) (td_mu m) * r). intros q. generalize (erf q) (exp (- q ^ 2)). intros e x. split.
  - generalize (3 / (sqrt PI * q) * x + (1 - 3 / (2 * q ^ 2)) * e). intros h. field. lra.
  - generalize (3 * e - 2 * q / sqrt PI * (3 + 2 * q ^ 2) * x). intros h. field. lra.
Qed.
Lemma vmd_scale m m' mo x y : same_diffusion a m m' -> 0 < x ^ 2 + y ^ 2 ->
  vmd_H (td_time m') (td_sigma m') (td_mu m') mo (a * x) (a * y) = vscal (/ a ^ 3) (vmd_H (td_time m) (td_sigma m) (td_mu m) mo x y) /\
  vmd_dH (td_time m') (td_sigma m') (td_mu m') mo (a * x) (a * y) = vscal (td_time m / td_time m' / a ^ 3) (vmd_dH (td_time m) (td_sigma m) (td_mu m) mo x y).
Proof.
  intros S XY. unfold vmd_H, vmd_dH. cbv zeta.
  change (sqrt ((a * x) ^ 2 + (a * y) ^ 2)) with (hyp2 (a * x) (a * y)). change (sqrt (x ^ 2 + y ^ 2)) with (hyp2 x y). rewrite hyp2_scale, atan2_scale by exact A.
  destruct (hyp2_pos x y XY) as (R0 & _). set (r := hyp2 x y) in *. pose proof (theta_scale a A m m' r S) as T. unfold td_theta in T. rewrite T.
  destruct S as (T0 & T1 & G & G' & ? & ? & _).
  generalize (theta (td_time m) (td_sigma m) (td_mu m) * r). intros q. pose proof PI_RGT_0.
  split; rewrite vscal_vscal.
  - generalize ((9 / (2 * q ^ 2) - 1) * erf q - (9 / q + 4 * q) / sqrt PI * exp (- q ^ 2)). intros h. generalize (ive 1 (q ^ 2 / 2) - ive 2 (q ^ 2 / 2)) (cos (atan2 y x)) (sin (atan2 y x)). intros i co si. apply vec3_eq; vunf; field; repeat split; lra.
  - generalize (9 / (2 * q ^ 2) * erf q - (4 * q ^ 3 + 6 * q + 9 / q) / sqrt PI * exp (- q ^ 2)). intros h. generalize ((1 + q ^ 2) * ive 0 (q ^ 2 / 2) - (2 + q ^ 2 + 4 / q ^ 2) * ive 1 (q ^ 2 / 2)) (cos (atan2 y x)) (sin (atan2 y x)). intros i co si. apply vec3_eq; vunf; field; repeat split; lra.
Qed.
End Scale.
