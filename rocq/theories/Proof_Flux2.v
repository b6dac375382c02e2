(** Proofs for the integral laws, part 2: the sources of the package. *)
From Coq Require Import Reals Lra Lia List Bool String.
From Coquelicot Require Import Coquelicot.
From Verif Require Import Vec3 Calculus Deriv Integral Numpy Spec_Static Spec_Flux Proof_Flux.
From Verif Require Import Model_Gravity Model_Static Proof_Gravity Proof_Static2 Proof_Static3 Proof_Sphere Proof_Line Proof_Line2.
Import ListNotations.
Open Scope R_scope.

Lemma enclosed_in rad d I : Rabs d < rad -> enclosed rad d I = I.
Proof. intro H. unfold enclosed. destruct (Rlt_dec _ _); [reflexivity|contradiction]. Qed.
Lemma enclosed_out rad d I : rad < Rabs d -> enclosed rad d I = 0.
Proof. intro H. unfold enclosed. destruct (Rlt_dec _ _); [lra|reflexivity]. Qed.

Lemma off_surface e1 e2 e3 c rad d t p : frame e1 e2 e3 -> 0 < rad -> Rabs d <> rad ->
  vsub (vadd c (vscal rad (direction e1 e2 e3 t p))) (along c d e3) <> vzero.
Proof.
  intros F H N E. pose proof (rvec_norm2 e1 e2 e3 c rad d t p F) as X. rewrite E in X.
  pose proof (q2_pos rad d (cos t) H N (COS_bound t)) as Q. rewrite <- X in Q. unfold vnorm2, vzero in Q; cbn in Q. lra.
Qed.

Lemma inv_square_enclosed e1 e2 e3 c rad d : frame e1 e2 e3 -> 0 < rad -> Rabs d <> rad ->
  flux_out e1 e2 e3 c rad (inv_square (along c d e3)) (4 * PI * enclosed rad d 1).
Proof.
  intros F H N. destruct (Rlt_le_dec (Rabs d) rad) as [L|L].
  - rewrite enclosed_in by exact L. rewrite Rmult_1_r. apply inv_square_inside; assumption.
  - assert (L' : rad < Rabs d) by lra. rewrite enclosed_out by exact L'. rewrite Rmult_0_r. apply inv_square_outside; assumption.
Qed.

Lemma enclosed_scal rad d I : enclosed rad d I = I * enclosed rad d 1.
Proof. unfold enclosed. destruct (Rlt_dec _ _); ring. Qed.

(** any field that is [k] times an inverse-square field on the sphere *)
Lemma flux_of_inv_square e1 e2 e3 c rad d k (J : vec3 -> vec3) I : frame e1 e2 e3 -> 0 < rad -> Rabs d <> rad -> 4 * PI * k = I ->
  (forall q, vsub q (along c d e3) <> vzero -> J q = vscal k (inv_square (along c d e3) q)) ->
  flux_out e1 e2 e3 c rad J (enclosed rad d I).
Proof.
  intros F H N K E. rewrite enclosed_scal. replace (I * enclosed rad d 1) with (k * (4 * PI * enclosed rad d 1)) by (rewrite <- K; ring).
  eapply flux_ext; [|apply flux_scal; apply inv_square_enclosed; assumption].
  intros t p _. cbv beta. symmetry. apply E. apply off_surface; assumption.
Qed.

Lemma pm_field_eq s q : vsub q (pm_loc s) <> vzero -> pm_field s q = vscal (- G_newton * pm_mass s) (inv_square (pm_loc s) q).
Proof.
  intro N. unfold pm_field, inv_square. cbv zeta. pose proof (vnorm_pos _ N). set (r := vnorm _) in *. set (v := vsub _ _) in *.
  destruct v as [x y z]. unfold vscal; cbn [vx vy vz]. f_equal; field; lra.
Qed.

Lemma pm_gauss s e1 e2 e3 c rad d : frame e1 e2 e3 -> 0 < rad -> Rabs d <> rad -> pm_loc s = along c d e3 ->
  flux_out e1 e2 e3 c rad (pm_field s) (- 4 * PI * G_newton * enclosed rad d (pm_mass s)).
Proof.
  intros F H N L. replace (- 4 * PI * G_newton * enclosed rad d (pm_mass s)) with (enclosed rad d (- 4 * PI * G_newton * pm_mass s))
    by (rewrite enclosed_scal, (enclosed_scal rad d (pm_mass s)); ring).
  apply (flux_of_inv_square e1 e2 e3 c rad d (- G_newton * pm_mass s)); try assumption; [ring|].
  intros q Q. rewrite <- L in *. apply pm_field_eq; exact Q.
Qed.

Lemma gs_eval s q : eval1 vzero (gs_field_grid s) q = gs_field_pt s q.
Proof. unfold eval1. rewrite gs_field_grid_pt. reflexivity. Qed.

Lemma dir_unit e1 e2 e3 t p : frame e1 e2 e3 -> vnorm (direction e1 e2 e3 t p) = 1.
Proof. intro F. unfold vnorm. rewrite vnorm2_dot, frame_norm by exact F. apply sqrt_1. Qed.

Lemma gs_gauss_centre s e1 e2 e3 rad : frame e1 e2 e3 -> 0 < rad -> 0 <= gs_radius s ->
  flux_out e1 e2 e3 (gs_loc s) rad (eval1 vzero (gs_field_grid s))
    (- 4 * PI * G_newton * (gs_rho s * (4 / 3 * PI * Rmin rad (gs_radius s) ^ 3))).
Proof.
  intros F H R0.
  set (k := (- G_newton * (4 / 3 * PI * gs_rho s)) * (Rmin rad (gs_radius s) ^ 3 / rad ^ 2)).
  replace (- 4 * PI * G_newton * (gs_rho s * (4 / 3 * PI * Rmin rad (gs_radius s) ^ 3))) with (4 * PI * rad ^ 2 * k) by (unfold k; field; lra).
  apply constant_zone; [exact F|]. intros t p. rewrite gs_eval. set (n := direction e1 e2 e3 t p).
  assert (Nn : vdot n n = 1) by (apply frame_norm; exact F).
  assert (V : vsub (vadd (gs_loc s) (vscal rad n)) (gs_loc s) = vscal rad n) by (destruct (gs_loc s), n; vring).
  assert (W : vnorm (vscal rad n) = rad). { rewrite vnorm_scal. unfold n; rewrite dir_unit by exact F. rewrite Rabs_pos_eq by lra. ring. }
  unfold gs_field_pt. rewrite V, W. unfold k, Rmin. destruct (Rltb (gs_radius s) rad) eqn:B.
  - apply Rltb_true in B. destruct (Rle_dec rad (gs_radius s)); [lra|].
    unfold pm_field, gs_as_point_mass. cbv zeta. cbn [pm_loc pm_mass]. rewrite V, W. unfold gs_mass.
    replace (vdot _ n) with (- G_newton * (4 / 3 * PI * gs_radius s ^ 3 * gs_rho s) / rad ^ 2 * vdot n n).
    + rewrite Nn. field. lra.
    + destruct n as [x y z]. unfold vdot, vscal; cbn [vx vy vz]. field. lra.
  - apply Rltb_false in B. destruct (Rle_dec rad (gs_radius s)); [|lra].
    replace (vdot _ n) with (- G_newton * 4 / 3 * PI * gs_rho s * rad * vdot n n) by (destruct n; vunf; ring).
    rewrite Nn. field. lra.
Qed.

Lemma q2_far_out R0 d u a : 0 < R0 -> 0 <= a -> R0 + a < Rabs d -> -1 <= u <= 1 -> a * a < q2 R0 d u.
Proof.
  intros H A D U. unfold q2. assert (B : d ^ 2 = Rabs d ^ 2) by (rewrite <- (pow2_abs d); reflexivity).
  assert (E : d * u <= Rabs d) by (unfold Rabs; destruct (Rcase_abs d); nra). nra.
Qed.
Lemma q2_far_in R0 d u a : 0 < R0 -> 0 <= a -> Rabs d + a < R0 -> -1 <= u <= 1 -> a * a < q2 R0 d u.
Proof.
  intros H A D U. unfold q2. assert (B : d ^ 2 = Rabs d ^ 2) by (rewrite <- (pow2_abs d); reflexivity).
  pose proof (Rabs_pos d). assert (E : d * u <= Rabs d) by (unfold Rabs; destruct (Rcase_abs d); nra). nra.
Qed.

Lemma gs_gauss_clear s e1 e2 e3 c rad d : frame e1 e2 e3 -> 0 < rad -> 0 <= gs_radius s -> gs_loc s = along c d e3 ->
  rad + gs_radius s < Rabs d \/ Rabs d + gs_radius s < rad ->
  flux_out e1 e2 e3 c rad (eval1 vzero (gs_field_grid s)) (- 4 * PI * G_newton * enclosed rad d (gs_mass s)).
Proof.
  intros F H R0 L D. pose proof (Rabs_pos d) as P. assert (N : Rabs d <> rad) by (destruct D; lra).
  eapply flux_ext; [|apply (pm_gauss (gs_as_point_mass s) e1 e2 e3 c rad d F H N L)].
  intros t p _. cbv beta. rewrite gs_eval. symmetry. apply gs_outside_field.
  rewrite L. unfold vnorm. rewrite rvec_norm2 by exact F.
  assert (Q : gs_radius s * gs_radius s < q2 rad d (cos t)) by (destruct D; [apply q2_far_out|apply q2_far_in]; try assumption; apply COS_bound).
  rewrite <- (sqrt_square (gs_radius s) R0) at 1. apply sqrt_lt_1; [nra|nra|exact Q].
Qed.

(** ** Electrodes *)
Lemma pc_J_eq rho I loc q : rho <> 0 -> vsub q loc <> vzero ->
  pc_current_density (point_current rho I loc) q = vscal (I / (4 * PI)) (inv_square loc q).
Proof.
  intros Hr N. assert (N' : q <> loc) by (intro E; apply N; rewrite E; destruct loc; vring).
  assert (Q : 1 / rho <> 0) by (unfold Rdiv; rewrite Rmult_1_l; apply Rinv_neq_0_compat; exact Hr).
  unfold pc_current_density, point_current. destruct (lc_single loc I (1 / rho) 0 q Q N') as [_ [_ E]]. rewrite E.
  pose proof (vnorm_pos _ N). pose proof PI_RGT_0. unfold inv_square. destruct (vsub q loc) as [x y z] eqn:V. rewrite <- V in *. set (r := vnorm _) in *.
  rewrite V. unfold vscal; cbn [vx vy vz]. f_equal; field; split; lra.
Qed.

Lemma pc_gauss rho I loc e1 e2 e3 c rad d : frame e1 e2 e3 -> 0 < rad -> Rabs d <> rad -> rho <> 0 -> loc = along c d e3 ->
  flux_out e1 e2 e3 c rad (pc_current_density (point_current rho I loc)) (enclosed rad d I).
Proof.
  intros F H N Hr L. pose proof PI_RGT_0. apply (flux_of_inv_square e1 e2 e3 c rad d (I / (4 * PI))); try assumption; [field; lra|].
  intros q Q. rewrite L. apply pc_J_eq; assumption.
Qed.

Lemma lc_gauss s e1 e2 e3 c rad d1 d0 : frame e1 e2 e3 -> 0 < rad -> Rabs d1 <> rad -> Rabs d0 <> rad ->
  (2 <= List.length (lc_nodes s))%nat -> lc_sigma s <> 0 -> last_node s = along c d1 e3 -> first_node s = along c d0 e3 ->
  flux_out e1 e2 e3 c rad (lc_current_density s) (enclosed rad d1 (lc_current s) - enclosed rad d0 (lc_current s)).
Proof.
  intros F H N1 N0 Ln Hs L1 L0. pose proof PI_RGT_0.
  rewrite (enclosed_scal rad d1), (enclosed_scal rad d0). set (k := lc_current s / (4 * PI)).
  replace (lc_current s * enclosed rad d1 1 - lc_current s * enclosed rad d0 1)
    with (k * (4 * PI * enclosed rad d1 1) + (- k) * (4 * PI * enclosed rad d0 1)) by (unfold k; field; lra).
  eapply flux_ext; [|apply flux_add; apply flux_scal; apply inv_square_enclosed; [exact F|exact H|exact N1|exact F|exact H|exact N0]].
  intros t p _. cbv beta. set (q := vadd c _).
  pose proof (off_surface e1 e2 e3 c rad d1 t p F H N1) as Q1. pose proof (off_surface e1 e2 e3 c rad d0 t p F H N0) as Q0. fold q in Q1, Q0.
  unfold lc_current_density, lc_electric_field.
  assert (Z : Nat.eqb (n_segments s) 0 = false) by (apply Nat.eqb_neq; unfold n_segments; lia). rewrite Z.
  destruct (vall_eq (last_node s) (first_node s)) eqn:W.
  - apply vall_eq_true in W. rewrite <- L1, <- L0, W. unfold vadd, vscal, vzero; cbn. f_equal; ring.
  - rewrite L1, L0. cbv zeta. unfold inv_square. pose proof (vnorm_pos _ Q1). pose proof (vnorm_pos _ Q0).
    set (r1 := vnorm _) in *. set (r0 := vnorm (vsub q (along c d0 e3))) in *. unfold k.
    destruct (vsub q (along c d1 e3)) as [x1 y1 z1], (vsub q (along c d0 e3)) as [x0 y0 z0]. unfold vadd, vscal, vsub, vdiv; cbn [vx vy vz]. f_equal; field; lra.
Qed.

(** ** Half space *)
Lemma hs_one s q : vz q <= 0 -> hs_current_density s [q] = Ok [vdiv (hs_E s q) (hs_rho s)].
Proof.
  intro H. unfold hs_current_density, hs_electric_field, any_above. cbn [existsb]. rewrite (proj2 (Rltb_false _ _)) by exact H. reflexivity.
Qed.

Lemma hs_J_eq s q : hs_rho s <> 0 -> vsub q (hs_loc s) <> vzero -> vsub q (mirror (hs_loc s)) <> vzero ->
  vdiv (hs_E s q) (hs_rho s) = vadd (vscal (hs_current s / (4 * PI)) (inv_square (hs_loc s) q)) (vscal (hs_current s / (4 * PI)) (inv_square (mirror (hs_loc s)) q)).
Proof.
  intros Hr N M. rewrite <- (pc_J_eq (hs_rho s) (hs_current s) (hs_loc s) q Hr N), <- (pc_J_eq (hs_rho s) (hs_current s) (mirror (hs_loc s)) q Hr M).
  unfold hs_E, pc_electric_field, pc_current_density, lc_current_density. fold (hs_primary s) (hs_image s).
  assert (A : lc_sigma (hs_primary s) = 1 / hs_rho s) by reflexivity. assert (B : lc_sigma (hs_image s) = 1 / hs_rho s) by reflexivity. rewrite A, B.
  destruct (lc_electric_field (hs_primary s) q) as [x1 y1 z1], (lc_electric_field (hs_image s) q) as [x0 y0 z0]. unfold vdiv, vadd, vscal; cbn [vx vy vz]. f_equal; field; exact Hr.
Qed.

Lemma frame_up : frame (V3 1 0 0) (V3 0 1 0) (V3 0 0 1).
Proof. repeat split; unfold vdot; cbn; ring. Qed.

Lemma hs_gauss s rad : hs_rho s <> 0 -> vz (hs_loc s) <= 0 -> 0 < rad -> - vz (hs_loc s) <> rad ->
  exists J, (forall q, vz q <= 0 -> hs_current_density s [q] = Ok [J q]) /\
    flux_below (V3 1 0 0) (V3 0 1 0) (V3 0 0 1) (V3 (vx (hs_loc s)) (vy (hs_loc s)) 0) rad J (enclosed rad (vz (hs_loc s)) (hs_current s)).
Proof.
  intros Hr Z H N. exists (fun q => vdiv (hs_E s q) (hs_rho s)). split; [intros q Q; apply hs_one; exact Q|].
  set (c := V3 (vx (hs_loc s)) (vy (hs_loc s)) 0). set (h := vz (hs_loc s)) in *. pose proof PI_RGT_0. pose proof frame_up as F.
  assert (Ah : Rabs h = - h) by (rewrite Rabs_left1; lra). assert (Ah' : Rabs (- h) = - h) by (rewrite Rabs_Ropp; exact Ah).
  assert (L : hs_loc s = along c h (V3 0 0 1)) by (apply vec3_eq; unfold c, h, along; cbn; ring).
  assert (M : mirror (hs_loc s) = along c (- h) (V3 0 0 1)) by (apply vec3_eq; unfold c, h, along, mirror; cbn; ring).
  set (k := hs_current s / (4 * PI)).
  assert (T : PI / 2 <= PI) by lra.
  pose proof (inv_square_zone _ _ _ c rad h (PI / 2) PI 0 (2 * PI) F H ltac:(lra) T) as Z1.
  pose proof (inv_square_zone _ _ _ c rad (- h) (PI / 2) PI 0 (2 * PI) F H ltac:(lra) T) as Z2.
  apply (flux_scal _ _ _ _ _ _ _ _ _ _ k) in Z1. apply (flux_scal _ _ _ _ _ _ _ _ _ _ k) in Z2.
  pose proof (flux_add _ _ _ _ _ _ _ _ _ _ _ _ _ Z1 Z2) as A. clear Z1 Z2.
  rewrite !mono_part_PI, !mono_part_PI2 in A by exact H. replace ((- h) ^ 2) with (h ^ 2) in A by ring.
  unfold flux_below. match type of A with patch_flux _ _ _ _ _ _ _ _ _ _ ?x => assert (E : x = enclosed rad h (hs_current s)) end.
  { rewrite (div_abs_pos (rad + - h)) by lra. set (s0 := sqrt _).
    destruct (Rlt_le_dec (Rabs h) rad) as [I|I].
    - rewrite enclosed_in by exact I. rewrite div_abs_pos by lra. transitivity (4 * PI * k); [unfold Rdiv; ring|unfold k; field; lra].
    - rewrite enclosed_out by lra. rewrite div_abs_neg by lra. unfold Rdiv. ring. }
  rewrite E in A. eapply flux_ext; [|exact A]. intros t p _. cbv beta.
  symmetry. rewrite <- L, <- M. apply hs_J_eq; [exact Hr| |].
  - rewrite L. apply off_surface; [exact F|exact H|lra].
  - rewrite M. apply off_surface; [exact F|exact H|lra].
Qed.

(** two electrodes on the surface *)
Lemma beyond_enclosed e1 e2 e3 c rad d : frame e1 e2 e3 -> 0 < rad -> Rabs d <> rad ->
  flux_beyond e1 e2 e3 c rad (inv_square (along c d e3)) (2 * PI * enclosed rad d 1).
Proof.
  intros F H N. pose proof PI_RGT_0.
  pose proof (inv_square_zone e1 e2 e3 c rad d 0 PI PI (2 * PI) F H N ltac:(lra)) as Z.
  rewrite mono_part_0, mono_part_PI in Z by exact H. unfold flux_beyond.
  match type of Z with patch_flux _ _ _ _ _ _ _ _ _ _ ?x => assert (E : x = 2 * PI * enclosed rad d 1) end; [|rewrite E in Z; exact Z].
  destruct (Rlt_le_dec (Rabs d) rad) as [L|L].
  - rewrite enclosed_in by exact L. apply Rabs_def2 in L. rewrite !div_abs_pos by lra. ring.
  - rewrite enclosed_out by lra. assert (L' : rad < Rabs d) by lra. clear L. unfold Rabs in L'. destruct (Rcase_abs d).
    + rewrite div_abs_neg, div_abs_pos by lra. ring.
    + rewrite (div_abs_pos (rad + d)), (div_abs_neg (rad - d)) by lra. ring.
Qed.

Lemma dh_one s q : vz q <= 0 -> dh_current_density s [q] None = Ok [vdiv (vsub (hs_E (dh_sa s) q) (hs_E (dh_sb s) q)) (dh_rho s)].
Proof.
  intro H. unfold dh_current_density, dh_electric_field, hs_electric_field, any_above. cbn [existsb]. rewrite (proj2 (Rltb_false _ _)) by exact H. reflexivity.
Qed.

Lemma dh_gauss s e1 e3 c rad da db : frame e1 (V3 0 0 1) e3 -> 0 < rad -> Rabs da <> rad -> Rabs db <> rad -> dh_rho s <> 0 ->
  vz c = 0 -> dh_a s = along c da e3 -> dh_b s = along c db e3 ->
  exists J, (forall q, vz q <= 0 -> dh_current_density s [q] None = Ok [J q]) /\
    flux_beyond e1 (V3 0 0 1) e3 c rad J (enclosed rad da (dh_current s) - enclosed rad db (dh_current s)).
Proof.
  intros F H Na Nb Hr C LA LB. exists (fun q => vdiv (vsub (hs_E (dh_sa s) q) (hs_E (dh_sb s) q)) (dh_rho s)).
  split; [intros q Q; apply dh_one; exact Q|]. pose proof PI_RGT_0.
  assert (E3 : vz e3 = 0). { destruct F as [_ [_ [_ [_ [F _]]]]]. unfold vdot in F; cbn in F. lra. }
  assert (MI : forall d, mirror (along c d e3) = along c d e3) by (intro d; unfold mirror, along; apply vec3_eq; cbn; rewrite ?C, ?E3; ring).
  rewrite (enclosed_scal rad da), (enclosed_scal rad db). set (k := dh_current s / (2 * PI)).
  replace (dh_current s * enclosed rad da 1 - dh_current s * enclosed rad db 1)
    with (k * (2 * PI * enclosed rad da 1) + (- k) * (2 * PI * enclosed rad db 1)) by (unfold k; field; lra).
  eapply flux_ext; [|apply flux_add; apply flux_scal; apply beyond_enclosed; [exact F|exact H|exact Na|exact F|exact H|exact Nb]].
  intros t p _. cbv beta. set (q := vadd c _).
  pose proof (off_surface e1 _ e3 c rad da t p F H Na) as QA. pose proof (off_surface e1 _ e3 c rad db t p F H Nb) as QB. fold q in QA, QB.
  pose proof (hs_J_eq (dh_sa s) q) as JA. pose proof (hs_J_eq (dh_sb s) q) as JB. unfold dh_sa, dh_sb in *. cbn [hs_rho hs_loc hs_current] in *.
  rewrite LA, LB in *. rewrite !MI in *. specialize (JA Hr QA QA). specialize (JB Hr QB QB).
  set (EA := hs_E _ _) in *. set (EB := hs_E (HS _ _ (along c db e3)) _) in *.
  assert (X : vdiv (vsub EA EB) (dh_rho s) = vsub (vdiv EA (dh_rho s)) (vdiv EB (dh_rho s))) by (destruct EA as [x1 y1 z1], EB as [x0 y0 z0]; unfold vdiv, vsub; cbn [vx vy vz]; f_equal; field; exact Hr).
  rewrite X, JA, JB. unfold k. destruct (inv_square (along c da e3) q) as [x1 y1 z1], (inv_square (along c db e3) q) as [x0 y0 z0].
  unfold vadd, vsub, vscal; cbn [vx vy vz]. f_equal; field; lra.
Qed.

(** ** Magnetic sources *)
Lemma md_B_eq s q : vsub q (md_loc s) <> vzero -> md_B s q = vscal (md_moment s * md_mu s / (4 * PI)) (dipole_at (md_orient s) (md_loc s) q).
Proof.
  intro N. unfold md_B, dipole_at. cbv zeta. pose proof (vnorm_pos _ N). pose proof PI_RGT_0. set (r := vnorm _) in *. set (v := vsub _ _) in *.
  destruct v as [x y z], (md_orient s) as [ox oy oz]. unfold vdot, vsub, vscal, vdiv; cbn [vx vy vz]. f_equal; field; split; lra.
Qed.
Lemma md_gauss s e1 e2 e3 c rad d : frame e1 e2 e3 -> 0 < rad -> Rabs d <> rad -> md_loc s = along c d e3 -> flux_out e1 e2 e3 c rad (md_B s) 0.
Proof.
  intros F H N L. replace 0 with (md_moment s * md_mu s / (4 * PI) * 0) by ring.
  eapply flux_ext; [|apply flux_scal; apply (dipole_flux e1 e2 e3 c rad d (md_orient s) F H N)].
  intros t p _. cbv beta. rewrite <- L. symmetry. apply md_B_eq. rewrite L. apply off_surface; assumption.
Qed.
Lemma mp_gauss s e1 e2 e3 c rad d : frame e1 e2 e3 -> 0 < rad -> Rabs d <> rad -> md_loc s = along c d e3 ->
  flux_out e1 e2 e3 c rad (mp_B s) (enclosed rad d (md_mu s * md_moment s)).
Proof.
  intros F H N L. pose proof PI_RGT_0. apply (flux_of_inv_square e1 e2 e3 c rad d (md_moment s * md_mu s / (4 * PI))); try assumption; [field; lra|].
  intros q Q. rewrite <- L in *. unfold mp_B, inv_square. cbv zeta. pose proof (vnorm_pos _ Q). set (r := vnorm _) in *. set (v := vsub _ _) in *.
  destruct v as [x y z]. unfold vscal, vdiv; cbn [vx vy vz]. f_equal; field; split; lra.
Qed.

(** ** Spheres in a uniform field *)
Lemma centred_shell s e1 e2 e3 rad t p : frame e1 e2 e3 -> 0 < rad -> let q := vadd (sp_loc s) (vscal rad (direction e1 e2 e3 t p)) in
  vsub q (sp_loc s) = vscal rad (direction e1 e2 e3 t p) /\ vnorm (vsub q (sp_loc s)) = rad.
Proof.
  intros F H. cbv zeta. set (n := direction e1 e2 e3 t p).
  assert (V : vsub (vadd (sp_loc s) (vscal rad n)) (sp_loc s) = vscal rad n) by (destruct (sp_loc s), n; vring).
  split; [exact V|]. rewrite V, vnorm_scal. unfold n; rewrite dir_unit by exact F. rewrite Rabs_pos_eq by lra. ring.
Qed.

Lemma sp_E_on s e1 e2 e3 rad : frame e1 e2 e3 -> 0 < rad ->
  exists k, forall t p, vdot (sp_E s (vadd (sp_loc s) (vscal rad (direction e1 e2 e3 t p)))) (direction e1 e2 e3 t p) = k * vdot (direction e1 e2 e3 t p) (sp_F0 s).
Proof.
  intros F H.
  exists (if Rltb (sp_radius s) rad then (1 - sp_cur s * sp_radius s ^ 3 / rad ^ 3) + 3 * sp_cur s * sp_radius s * (rad * rad) / rad ^ 4 else 3 * sp_c0 s / (sp_c1 s + 2 * sp_c0 s)).
  intros t p. destruct (centred_shell s e1 e2 e3 rad t p F H) as [V W]. unfold sp_E, sp_Eout. cbv zeta. rewrite W, V.
  pose proof (frame_norm e1 e2 e3 t p F) as Nn. set (n := direction e1 e2 e3 t p) in *. destruct (Rltb _ _).
  - assert (X : vdot (vadd (vscal (1 - sp_cur s * sp_radius s ^ 3 / rad ^ 3) (sp_F0 s)) (vdiv (vscal (3 * vdot (vscal rad n) (sp_F0 s) * sp_cur s * sp_radius s) (vscal rad n)) (rad ^ 4))) n
      = (1 - sp_cur s * sp_radius s ^ 3 / rad ^ 3) * vdot n (sp_F0 s) + 3 * rad * vdot n (sp_F0 s) * sp_cur s * sp_radius s * rad * vdot n n / rad ^ 4).
    { destruct n as [nx ny nz], (sp_F0 s) as [fx fy fz]. unfold vdot, vadd, vscal, vdiv; cbn [vx vy vz]. unfold Rdiv. ring. }
    rewrite X, Nn. unfold Rdiv. ring.
  - destruct n as [nx ny nz], (sp_F0 s) as [fx fy fz]. unfold vdot, vscal; cbn [vx vy vz]. ring.
Qed.

Lemma sphere_gauss s e1 e2 e3 rad : frame e1 e2 e3 -> 0 < rad ->
  exists E J, (forall q, sphere_field s [q] "total" = Ok (One [E q])) /\ (forall q, sphere_flux s [q] "total" = Ok (One [J q])) /\
    flux_out e1 e2 e3 (sp_loc s) rad E 0 /\ flux_out e1 e2 e3 (sp_loc s) rad J 0.
Proof.
  intros F H. exists (sp_E s), (fun p => vscal (sp_coef s p) (sp_E s p)).
  split; [intro q; apply (sphere_field_modes s [q])|]. split; [intro q; apply (sphere_flux_modes s [q])|].
  destruct (sp_E_on s e1 e2 e3 rad F H) as [k K]. split; [apply (linear_flux _ _ _ _ _ _ k (sp_F0 s) F K)|].
  apply (linear_flux _ _ _ _ _ _ ((if Rleb rad (sp_radius s) then sp_c1 s else sp_c0 s) * k) (sp_F0 s) F).
  intros t p. unfold sp_coef. destruct (centred_shell s e1 e2 e3 rad t p F H) as [_ W]. cbv zeta in W. rewrite W.
  set (co := if Rleb rad (sp_radius s) then sp_c1 s else sp_c0 s). rewrite Rmult_assoc, <- K. set (e := sp_E _ _). set (n := direction _ _ _ _ _). destruct e as [x y z], n as [nx ny nz]. unfold vdot, vscal; cbn [vx vy vz]. ring.
Qed.
