(** C110: the loop against the dipole of the same moment. *)
From Coq Require Import String Reals List Lra.
From Coquelicot Require Import Coquelicot.
From Verif Require Import Vec3 Calculus Deriv Numpy Model_Static Spec_Static Spec_Loop Proof_Loop3 Proof_Loop5 Proof_LoopFar Proof_LoopFar2.
Open Scope R_scope.

Lemma unit_perp n : vnorm n = 1 -> exists u, vdot u u = 1 /\ vdot u n = 0.
Proof.
  intros N. assert (N2 : vnorm2 n = 1) by (rewrite <- vnorm_sqr, N; ring).
  set (q := vx n * vx n + vy n * vy n). assert (Q0 : 0 <= q) by (unfold q; nra). destruct (Req_dec q 0) as [Z|Z].
  - exists (V3 1 0 0). assert (vx n = 0) by (unfold q in Z; nra). unfold vdot; cbn. split; lra.
  - assert (P : 0 < q) by lra. pose proof (sqrt_lt_R0 q P) as S. pose proof (sqrt_sqrt q Q0) as S2. exists (vscal (/ sqrt q) (V3 (- vy n) (vx n) 0)).
    unfold vdot, vscal; cbn. split; [|ring]. transitivity (q * / (sqrt q * sqrt q)); [generalize (sqrt q) S; unfold q; intros k K; field; lra|]. rewrite S2. field. lra.
Qed.
Lemma unit_frame n : vnorm n = 1 -> exists u v, orthonormal u v /\ n = vcross u v.
Proof.
  intros N. destruct (unit_perp n N) as (u & U & UN). exists u, (vcross n u).
  assert (N2 : vdot n n = 1) by (change (vdot n n) with (vnorm2 n); rewrite <- vnorm_sqr, N; ring).
  assert (E : vdot (vcross n u) (vcross n u) = vdot n n * vdot u u - vdot u n * vdot u n) by (unfold vdot, vcross; cbn; ring).
  split; [repeat split|].
  - exact U.
  - rewrite E, U, N2, UN. ring.
  - unfold vdot, vcross; cbn; ring.
  - transitivity (vsub (vscal (vdot u u) n) (vscal (vdot u n) u)); [rewrite U, UN; apply vec3_eq; cbn; ring|apply vec3_eq; unfold vdot; cbn; ring].
Qed.
Lemma pythagoras n d : vnorm n = 1 -> vnorm (vcross n d) ^ 2 + vdot n d ^ 2 = vnorm d ^ 2.
Proof.
  intros N. assert (N2 : vnorm2 n = 1) by (rewrite <- vnorm_sqr, N; ring). replace (vnorm (vcross n d) ^ 2) with (vnorm (vcross n d) * vnorm (vcross n d)) by ring.
  replace (vnorm d ^ 2) with (vnorm d * vnorm d) by ring. rewrite !vnorm_sqr. transitivity (vnorm2 n * vnorm2 d); [unfold vnorm2, vcross, vdot; cbn; ring|rewrite N2; ring].
Qed.

Section Far.
Variables (s : cloop) (p : vec3).
Let n := cl_orient s.
Let d := vsub p (cl_loc s).
Let r := vnorm d.
Let a := cl_radius s.
Let m := cl_current s * (PI * a ^ 2).
Let e := (a / r) ^ 2.
Hypothesis Ha : 0 < a < r.
Hypothesis Hn : proper_axis n.
Let dip := MD m n (cl_loc s) (cl_mu s).
Let k := cl_mu s * cl_current s / (4 * PI).

Lemma lf_md_A : md_A dip p = vscal k (vscal (PI * a ^ 2 / r ^ 3) (vcross n d)).
Proof.
  assert (PIpos := PI_RGT_0). unfold md_A, dip, k, m; cbn [md_loc md_moment md_orient md_mu]. fold d. fold r. assert (R0 : 0 < r) by lra.
  apply vec3_eq; unfold vscal, vcross, vdiv; cbn [vx vy vz]; generalize r R0; intros; field; lra.
Qed.
Lemma lf_md_B : md_B dip p = vscal k (vscal (PI * a ^ 2 / r ^ 3) (vsub (vscal (3 * vdot n d / r ^ 2) d) n)).
Proof.
  assert (PIpos := PI_RGT_0). unfold md_B, dip, k, m; cbn [md_loc md_moment md_orient md_mu]. fold d. fold r. assert (R0 : 0 < r) by lra.
  apply vec3_eq; unfold vscal, vdot, vsub, vdiv; cbn [vx vy vz]; generalize r R0; intros; field; lra.
Qed.
Lemma off_wire' : ~ (axis_distance n (cl_loc s) p = a /\ axis_height n (cl_loc s) p = 0).
Proof.
  intros [E1 E2]. unfold axis_distance, axis_height in *. fold d in E1, E2. destruct Hn as [N _]. pose proof (pythagoras n d N) as P. fold r in P. rewrite E1, E2 in P. nra.
Qed.
Lemma k_abs : Rabs k * (PI * a ^ 2) = Rabs (cl_mu s * m) / (4 * PI).
Proof.
  assert (PIpos := PI_RGT_0). assert (0 <= PI * a ^ 2) by (apply Rmult_le_pos; [lra|apply pow_le; lra]).
  replace (cl_mu s * m) with ((cl_mu s * cl_current s) * (PI * a ^ 2)) by (unfold m; ring). rewrite (Rabs_mult _ (PI * a ^ 2)), (Rabs_pos_eq (PI * a ^ 2)) by assumption.
  unfold k, Rdiv. rewrite (Rabs_mult _ (/ (4 * PI))), (Rabs_pos_eq (/ (4 * PI))) by (apply Rlt_le, Rinv_0_lt_compat; lra). ring.
Qed.
Lemma scaled V W K : vnorm (vsub V W) <= PI * a ^ 2 * K -> vnorm (vsub (vscal k V) (vscal k W)) <= Rabs (cl_mu s * m) / (4 * PI) * K.
Proof.
  intros H. replace (vsub (vscal k V) (vscal k W)) with (vscal k (vsub V W)) by (apply vec3_eq; cbn; ring). rewrite vnorm_scal, <- k_abs.
  replace (Rabs k * (PI * a ^ 2) * K) with (Rabs k * (PI * a ^ 2 * K)) by ring. apply Rmult_le_compat_l; [apply Rabs_pos|exact H].
Qed.

Lemma loop_far_A A : 1 / 10 ^ 6 <= axis_distance n (cl_loc s) p ^ 2 / (a ^ 2 + axis_height n (cl_loc s) p ^ 2) ->
  loop_vector_potential s "cartesian"%string p = Ok A ->
  vnorm (vsub A (md_A dip p)) <= Rabs (cl_mu s * m) / (4 * PI * r ^ 2) * (3 * (e / (1 - e))).
Proof.
  intros Br HA. assert (PIpos := PI_RGT_0). destruct (unit_frame n (proj1 Hn)) as (u & v & O & E).
  destruct (loop_line_integral s u v p ltac:(fold a; lra) O E Hn Br off_wire') as (V & HV & EV). rewrite EV in HA. injection HA as <-. fold k.
  rewrite lf_md_A. pose proof (circle_first (cl_loc s) u v p a O Ha V HV) as K. fold d in K. fold r in K. fold e in K. rewrite <- E in K.
  set (q := 3 * (e / (1 - e))) in *.
  replace (PI * a ^ 2 / r ^ 2 * q) with (PI * a ^ 2 * (q / r ^ 2)) in K by (field; lra). apply scaled in K.
  eapply Rle_trans; [exact K|]. apply Req_le. field. lra.
Qed.

Lemma lf_integral V : forall u v, orthonormal u v -> n = vcross u v -> is_circle_integral (biot_savart p) (cl_loc s) u v a V ->
  vnorm (vsub (vscal k V) (md_B dip p)) <= Rabs (cl_mu s * m) / (4 * PI * r ^ 3) * (33 * (e / (1 - e) ^ 3)).
Proof.
  intros u v O E HV. assert (PIpos := PI_RGT_0). rewrite lf_md_B. pose proof (circle_third (cl_loc s) u v p a O Ha V HV) as K. fold d in K. fold r in K. fold e in K. rewrite <- E in K.
  set (q := 33 * (e / (1 - e) ^ 3)) in *.
  replace (PI * a ^ 2 / r ^ 3 * q) with (PI * a ^ 2 * (q / r ^ 3)) in K by (field; lra). apply scaled in K.
  eapply Rle_trans; [exact K|]. apply Req_le. field. lra.
Qed.

Lemma loop_far_B B : 1 / 10 ^ 6 <= axis_distance n (cl_loc s) p ^ 2 / (a ^ 2 + axis_height n (cl_loc s) p ^ 2) ->
  loop_flux_density s "cartesian"%string p = Ok B ->
  vnorm (vsub B (md_B dip p)) <= Rabs (cl_mu s * m) / (4 * PI * r ^ 3) * (33 * (e / (1 - e) ^ 3)).
Proof.
  intros Br HB. destruct (unit_frame n (proj1 Hn)) as (u & v & O & E).
  destruct (loop_biot_savart s u v p ltac:(fold a; lra) O E Hn Br off_wire') as (V & HV & EV). rewrite EV in HB. injection HB as <-. fold k.
  exact (lf_integral V u v O E HV).
Qed.

Lemma loop_far_B_axis B : axis_distance n (cl_loc s) p ^ 2 / (a ^ 2 + axis_height n (cl_loc s) p ^ 2) < 1 / 10 ^ 6 ->
  loop_flux_density s "cartesian"%string p = Ok B ->
  vnorm (vsub B (md_B dip p)) <= Rabs (cl_mu s * m) / (4 * PI * r ^ 3) * (33 * (e / (1 - e) ^ 3) + 1 / 10 ^ 11).
Proof.
  intros Br HB. assert (PIpos := PI_RGT_0). destruct (unit_frame n (proj1 Hn)) as (u & v & O & E).
  destruct (loop_small_B5 s u v p ltac:(fold a; lra) O E Hn Br) as (V & B' & HV & EV & N). rewrite EV in HB. injection HB as <-. fold k in N. fold a in HV, N. fold n in N.
  pose proof (lf_integral V u v O E HV) as K.
  replace (vsub B' (md_B dip p)) with (vadd (vsub B' (vscal k V)) (vsub (vscal k V) (md_B dip p))) by (apply vec3_eq; cbn; ring).
  eapply Rle_trans; [apply vnorm_triangle|]. rewrite Rmult_plus_distr_l, Rplus_comm. apply Rplus_le_compat; [exact K|].
  eapply Rle_trans; [exact N|]. clear K N EV HV. pose proof (pythagoras n d (proj1 Hn)) as PY. fold r in PY.
  unfold axis_distance, axis_height in *. fold d in Br |- *. set (rho := vnorm (vcross n d)) in *. set (h := vdot n d) in *.
  assert (R0 : 0 <= rho) by apply vnorm_nonneg. clearbody rho h.
  assert (A2 : 0 < a ^ 2) by (apply pow_lt; lra). pose proof (pow2_ge_0 h) as H2. set (T := sqrt (a ^ 2 + h ^ 2)).
  assert (T2 : T * T = a ^ 2 + h ^ 2) by (apply sqrt_sqrt; lra). assert (T0 : 0 < T) by (apply sqrt_lt_R0; lra). clearbody T. rewrite <- T2 in Br.
  assert (RB : rho <= T / 1000).
  { assert (rho ^ 2 < T * T / 10 ^ 6). { apply Rmult_lt_reg_r with (/ (T * T)); [apply Rinv_0_lt_compat; nra|]. replace (T * T / 10 ^ 6 * / (T * T)) with (1 / 10 ^ 6) by (field; lra). exact Br. }
    apply Rnot_lt_le. intros L. assert (T / 1000 * (T / 1000) <= rho ^ 2) by (replace (rho ^ 2) with (rho * rho) by ring; apply Rmult_le_compat; lra). lra. }
  assert (HB : Rabs h <= T) by (apply Rabs_le; split; apply Rnot_lt_le; intros L; nra).
  assert (RT : r <= 11 / 10 * T) by (apply Rnot_lt_le; intros L; nra).
  assert (M0 : 0 <= Rabs (cl_mu s * cl_current s)) by apply Rabs_pos. unfold m.
  replace (cl_mu s * (cl_current s * (PI * a ^ 2))) with (cl_mu s * cl_current s * (PI * a ^ 2)) by ring. rewrite (Rabs_mult (cl_mu s * cl_current s) (PI * a ^ 2)), (Rabs_pos_eq (PI * a ^ 2)) by nra.
  set (M := Rabs (cl_mu s * cl_current s)) in *.
  assert (K1 : Rabs h * rho ^ 5 * r ^ 3 <= T * (T / 1000) ^ 5 * (11 / 10 * T) ^ 3).
  { assert (0 <= Rabs h) by apply Rabs_pos. assert (0 <= rho ^ 5 <= (T / 1000) ^ 5) by (split; [apply pow_le; exact R0|apply pow_incr; lra]).
    assert (0 <= r ^ 3 <= (11 / 10 * T) ^ 3) by (split; [apply pow_le; lra|apply pow_incr; lra]).
    apply Rmult_le_compat; try lra; [apply Rmult_le_pos; lra|]. apply Rmult_le_compat; lra. }
  assert (R3 : 0 < r ^ 3) by (apply pow_lt; lra).
  replace (M * (PI * a ^ 2) / (4 * PI * r ^ 3) * (1 / 10 ^ 11)) with (M * a ^ 2 * (1 / (4 * 10 ^ 11 * r ^ 3))) by (field; lra).
  replace (260 * M * a ^ 2 * Rabs h * rho ^ 5 / T ^ 9) with (M * a ^ 2 * (260 * (Rabs h * rho ^ 5) / T ^ 9)) by (field; lra).
  apply Rmult_le_compat_l; [apply Rmult_le_pos; lra|]. apply frac_le; [apply pow_lt; exact T0|apply Rmult_lt_0_compat; lra|].
  replace (260 * (Rabs h * rho ^ 5) * (4 * 10 ^ 11 * r ^ 3)) with (1040 * 10 ^ 11 * (Rabs h * rho ^ 5 * r ^ 3)) by ring.
  apply Rle_trans with (1040 * 10 ^ 11 * (T * (T / 1000) ^ 5 * (11 / 10 * T) ^ 3)); [apply Rmult_le_compat_l; lra|].
  replace (1040 * 10 ^ 11 * (T * (T / 1000) ^ 5 * (11 / 10 * T) ^ 3)) with (T ^ 9 * (1040 * 10 ^ 11 * (1 / 1000) ^ 5 * (11 / 10) ^ 3)) by field.
  rewrite Rmult_1_l. rewrite <- (Rmult_1_r (T ^ 9)) at 2. apply Rmult_le_compat_l; [apply pow_le; lra|lra].
Qed.
End Far.

Lemma loop_B_defined s p : 0 < cl_radius s < vnorm (vsub p (cl_loc s)) -> proper_axis (cl_orient s) -> exists B, loop_flux_density s "cartesian"%string p = Ok B.
Proof.
  intros Ha P. destruct (unit_frame _ (proj1 P)) as (u & v & O & E).
  destruct (Rlt_le_dec (axis_distance (cl_orient s) (cl_loc s) p ^ 2 / (cl_radius s ^ 2 + axis_height (cl_orient s) (cl_loc s) p ^ 2)) (1 / 10 ^ 6)) as [L|L].
  - destruct (loop_small_B5 s u v p (proj1 Ha) O E P L) as (V & B & _ & H & _). exists B. exact H.
  - destruct (loop_biot_savart s u v p (proj1 Ha) O E P L (off_wire' s p Ha P)) as (V & _ & H). eexists. exact H.
Qed.
Lemma loop_A_defined s p : 0 < cl_radius s < vnorm (vsub p (cl_loc s)) -> proper_axis (cl_orient s) ->
  1 / 10 ^ 6 <= axis_distance (cl_orient s) (cl_loc s) p ^ 2 / (cl_radius s ^ 2 + axis_height (cl_orient s) (cl_loc s) p ^ 2) ->
  exists A, loop_vector_potential s "cartesian"%string p = Ok A.
Proof.
  intros Ha P L. destruct (unit_frame _ (proj1 P)) as (u & v & O & E).
  destruct (loop_line_integral s u v p (proj1 Ha) O E P L (off_wire' s p Ha P)) as (V & _ & H). eexists. exact H.
Qed.

Lemma shrinking n c mu m p : proper_axis n -> let rho := axis_distance n c p in let h := axis_height n c p in
  h ^ 2 / 10 ^ 6 < rho ^ 2 -> forall eps, 0 < eps -> exists delta, 0 < delta /\ forall a, 0 < a < delta ->
  exists B, loop_flux_density (CL a (m / (PI * a ^ 2)) n c mu) "cartesian"%string p = Ok B /\ vnorm (vsub B (md_B (MD m n c mu) p)) < eps.
Proof.
  intros P rho h Br eps He. assert (PIpos := PI_RGT_0). pose proof (pythagoras n (vsub p c) (proj1 P)) as PY.
  change (vnorm (vcross n (vsub p c))) with rho in PY. change (vdot n (vsub p c)) with h in PY. set (r := vnorm (vsub p c)) in *.
  assert (H2 : 0 <= h ^ 2) by apply pow2_ge_0. assert (R2 : 0 < rho ^ 2) by lra. assert (Rp : 0 < r) by (assert (0 <= r) by apply vnorm_nonneg; nra).
  set (K := Rabs (mu * m) / (4 * PI * r ^ 3)). assert (R3 : 0 < r ^ 3) by (apply pow_lt; exact Rp).
  assert (K0 : 0 <= K) by (apply Rmult_le_pos; [apply Rabs_pos|apply Rlt_le, Rinv_0_lt_compat; apply Rmult_lt_0_compat; lra]).
  set (g := rho ^ 2 * 10 ^ 6 - h ^ 2). assert (G : 0 < g) by (unfold g; lra). pose proof (sqrt_lt_R0 g G) as SG. pose proof (sqrt_sqrt g (Rlt_le _ _ G)) as SG2.
  exists (Rmin (sqrt g) (Rmin (r / 2) (eps * r / (80 * K + 1)))).
  assert (Q : 0 < eps * r / (80 * K + 1)) by (apply Rdiv_lt_0_compat; [apply Rmult_lt_0_compat; assumption|lra]).
  split; [repeat apply Rmin_glb_lt; lra|]. intros a [A0 A1]. apply Rmin_Rgt_l in A1. destruct A1 as [A1 A2]. apply Rmin_Rgt_l in A2. destruct A2 as [A2 A3].
  set (s := CL a (m / (PI * a ^ 2)) n c mu). assert (Ha : 0 < cl_radius s < vnorm (vsub p (cl_loc s))) by (cbn; fold r; lra).
  destruct (loop_B_defined s p Ha P) as [B HB]. exists B. split; [exact HB|].
  assert (L : 1 / 10 ^ 6 <= axis_distance (cl_orient s) (cl_loc s) p ^ 2 / (cl_radius s ^ 2 + axis_height (cl_orient s) (cl_loc s) p ^ 2)).
  { cbn [cl_orient cl_loc cl_radius s]. fold rho h. assert (0 < a ^ 2) by (apply pow_lt; exact A0). apply frac_le; [apply pow_lt; lra|lra|].
    assert (a * a < sqrt g * sqrt g) by (apply Rmult_le_0_lt_compat; lra). rewrite SG2 in H0. unfold g in H0. lra. }
  pose proof (loop_far_B s p Ha P B L HB) as F. cbn [cl_orient cl_loc cl_radius cl_current cl_mu s] in F. fold r in F.
  replace (m / (PI * a ^ 2) * (PI * a ^ 2)) with m in F by (field; lra). fold K in F. eapply Rle_lt_trans; [exact F|].
  set (e := (a / r) ^ 2). set (x := a / r) in *. assert (X0 : 0 < x) by (apply Rdiv_lt_0_compat; assumption).
  assert (X1 : x < 1 / 2) by (apply Rmult_lt_reg_r with r; [exact Rp|]; unfold x; replace (a / r * r) with a by (field; lra); lra).
  assert (X2 : (80 * K + 1) * x < eps).
  { apply Rmult_lt_reg_r with r; [exact Rp|]. unfold x. replace ((80 * K + 1) * (a / r) * r) with ((80 * K + 1) * a) by (field; lra).
    apply Rmult_lt_reg_l with (/ (80 * K + 1)); [apply Rinv_0_lt_compat; lra|]. replace (/ (80 * K + 1) * ((80 * K + 1) * a)) with a by (field; lra). unfold Rdiv in A3. lra. }
  assert (E : 0 <= e <= x / 2) by (unfold e; split; nra). assert (E1 : e <= 1 / 4) by lra.
  assert (C : 42 / 100 <= (1 - e) ^ 3) by (apply Rle_trans with ((3 / 4) ^ 3); [lra|apply pow_incr; lra]).
  assert (EC : e / (1 - e) ^ 3 <= 24 / 10 * e).
  { unfold Rdiv. rewrite Rmult_comm. apply Rmult_le_compat_r; [lra|]. apply Rle_trans with (/ (42 / 100)); [apply Rinv_le_contravar; lra|lra]. }
  assert (K * (33 * (e / (1 - e) ^ 3)) <= K * (80 * x)) by (apply Rmult_le_compat_l; lra). lra.
Qed.
