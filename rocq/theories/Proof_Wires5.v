(** C118: the polygon and the loop. *)
From Coq Require Import String Reals Lra Lia List.
From Coquelicot Require Import Coquelicot.
From Verif Require Import Vec3 Calculus Deriv Integral Numpy Model_Static Spec_Static Spec_Loop Spec_Wires Proof_Line Proof_Line2 Proof_Loop3 Proof_Loop5 Proof_LoopFar2 Proof_LoopFar3 Proof_Wires Proof_Wires2 Proof_Wires4.
Import ListNotations.
Open Scope R_scope.

Section Ring.
Variables c u v p : vec3.
Variable a : R.
Hypothesis HO : orthonormal u v.
Hypothesis Ha : 0 < a.
Let n := vcross u v.
Let d := vsub p c.
Let delta := ring_distance n c a p.
Let rho := axis_distance n c p.
Let h := axis_height n c p.

Lemma ring_rho : rho * rho = vdot d u * vdot d u + vdot d v * vdot d v.
Proof.
  unfold rho, axis_distance. fold d. rewrite vnorm_sqr. replace (vcross n d) with (vadd (vscal (- vdot d v) u) (vscal (vdot d u) v)).
  - rewrite (cf_comb u v HO). ring.
  - unfold n. destruct u, v, d; unfold vcross, vadd, vscal, vdot; cbn. f_equal; ring.
Qed.
Lemma ring_off t : delta <= vnorm (vsub p (circle c u v a t)).
Proof.
  rewrite (cf_dist c u v p a HO t). unfold delta, ring_distance. apply sqrt_le_1_alt. fold rho h d.
  assert (P : rho ^ 2 + h ^ 2 = vnorm d ^ 2) by (apply (pythagoras n d), (cf_n u v HO)). assert (R0 : 0 <= rho) by apply vnorm_nonneg.
  assert (S : vdot d u * cos t + vdot d v * sin t <= rho).
  { pose proof ring_rho as Q. pose proof (sin2_cos2 t) as T. unfold Rsqr in T. apply Rnot_lt_le. intros N.
    pose proof (Rle_0_sqr (vdot d u * sin t - vdot d v * cos t)) as X. unfold Rsqr in X.
    assert (Y : (vdot d u * cos t + vdot d v * sin t) * (vdot d u * cos t + vdot d v * sin t) + (vdot d u * sin t - vdot d v * cos t) * (vdot d u * sin t - vdot d v * cos t) = rho * rho).
    { rewrite Q. replace (vdot d u * vdot d u + vdot d v * vdot d v) with ((vdot d u * vdot d u + vdot d v * vdot d v) * (sin t * sin t + cos t * cos t)) by (rewrite T; ring). ring. }
    nra. }
  rewrite <- P. nra.
Qed.
Lemma ring_pos : ~ (rho = a /\ h = 0) -> 0 < delta.
Proof.
  intros N. unfold delta, ring_distance. fold rho h. apply sqrt_lt_R0. pose proof (pow2_ge_0 (rho - a)). pose proof (pow2_ge_0 h).
  destruct (Req_dec h 0) as [E|E]; [|assert (0 < h ^ 2) by (apply pow2_gt_0; exact E); lra].
  destruct (Req_dec rho a) as [E'|E']; [exfalso; apply N; split; assumption|]. assert (0 < (rho - a) ^ 2) by (apply pow2_gt_0; lra). lra.
Qed.
Lemma ring_pos' : 0 < delta -> ~ (rho = a /\ h = 0).
Proof. intros P [E1 E2]. unfold delta, ring_distance in P. fold rho h in P. rewrite E1, E2 in P. replace ((a - a) ^ 2 + 0 ^ 2) with 0 in P by ring. rewrite sqrt_0 in P. lra. Qed.

Variable N : nat.
Hypothesis HN : 16 * PI * a <= delta * INR N.
Hypothesis Hd : 0 < delta.
Lemma ring_N : (0 < N)%nat.
Proof. destruct N; [|lia]. cbn in HN. pose proof PI_RGT_0. nra. Qed.
Lemma ring_step : 8 * (a * (2 * PI / INR N)) <= delta.
Proof. pose proof (lt_0_INR N ring_N) as P. apply Rmult_le_reg_r with (INR N); [exact P|]. replace (8 * (a * (2 * PI / INR N)) * INR N) with (16 * PI * a) by (field; lra). exact HN. Qed.
Lemma poly_B V W : is_wire_integral (biot_savart p) (polygon c u v a N) V -> is_circle_integral (biot_savart p) c u v a W ->
  vnorm (vsub V W) <= 4 * PI ^ 2 / INR N * (8 * a / delta ^ 2 + 256 * a ^ 2 / delta ^ 3).
Proof.
  intros HV HW. replace (8 * a / delta ^ 2 + 256 * a ^ 2 / delta ^ 3) with (2 * a * / (delta / 2) ^ 2 + 8 * a ^ 2 * (4 / (delta / 2) ^ 3)) by (field; lra).
  refine (poly_circle c u v p a HO Ha (biot_savart p) _ delta _ _ Hd ring_off (bs_lip p (delta / 2) ltac:(lra)) _ N ring_step ring_N V W HV HW).
  - intros k l x. unfold biot_savart. generalize (/ vnorm (vsub p x) ^ 3). intros y. destruct l, (vsub p x); vring.
  - assert (0 < / (delta / 2) ^ 2) by (apply Rinv_0_lt_compat, pow_lt; lra). assert (0 < / (delta / 2) ^ 3) by (apply Rinv_0_lt_compat, pow_lt; lra). unfold Rdiv at 2. lra.
Qed.
Lemma poly_A V W : is_wire_integral (dl_over_r p) (polygon c u v a N) V -> is_circle_integral (dl_over_r p) c u v a W ->
  vnorm (vsub V W) <= 4 * PI ^ 2 / INR N * (4 * a / delta + 32 * a ^ 2 / delta ^ 2).
Proof.
  intros HV HW. replace (4 * a / delta + 32 * a ^ 2 / delta ^ 2) with (2 * a * / (delta / 2) + 8 * a ^ 2 * / (delta / 2) ^ 2) by (field; lra).
  refine (poly_circle c u v p a HO Ha (dl_over_r p) _ delta _ _ Hd ring_off (dl_lip p (delta / 2) ltac:(lra)) _ N ring_step ring_N V W HV HW).
  - intros k l x. unfold dl_over_r. generalize (/ vnorm (vsub p x)). intros y. destruct l; vring.
  - assert (0 < / (delta / 2) ^ 2) by (apply Rinv_0_lt_compat, pow_lt; lra). assert (0 < / (delta / 2)) by (apply Rinv_0_lt_compat; lra). lra.
Qed.
Lemma poly_segments : forall m j, every_segment (off_segment p) (map (fun k => circle c u v a (2 * PI * (INR k / INR N))) (seq j (S m))).
Proof.
  pose proof (lt_0_INR N ring_N) as P. pose proof PI_RGT_0 as Pi.
  induction m as [|m IH]; intros j; [exact I|]. change (seq j (S (S m))) with (j :: S j :: seq (S (S j)) m). cbn [map]. split; [|apply (IH (S j))].
  intros s Hs E. replace (2 * PI * (INR (S j) / INR N)) with (2 * PI * (INR j / INR N) + 2 * PI / INR N) in E by (rewrite S_INR; field; lra).
  pose proof (chord_off c u v p a HO Ha delta ring_off (2 * PI * (INR j / INR N)) (2 * PI / INR N) s ltac:(apply Rlt_le, Rdiv_lt_0_compat; lra) ring_step Hs) as Q.
  cbv beta in Q. rewrite <- E in Q. replace (vsub p p) with vzero in Q by (destruct p; unfold vzero, vsub; cbn; f_equal; ring). rewrite vnorm_zero in Q. lra.
Qed.
End Ring.

Section PolyLoop.
Variable s : cloop.
Variables u v p : vec3.
Variable N : nat.
Variable sig : R.
Let a := cl_radius s.
Let c := cl_loc s.
Let n := cl_orient s.
Let delta := ring_distance n c a p.
Let w := LC (polygon c u v a N) (cl_current s) sig (cl_mu s).
Hypothesis Ha : 0 < a.
Hypothesis HO : orthonormal u v.
Hypothesis Hn : n = vcross u v.
Hypothesis HP : proper_axis n.
Hypothesis Hd : 0 < delta.
Hypothesis HN : 16 * PI * a <= delta * INR N.
Hypothesis Hw : proper_wire (lc_nodes w).

Lemma pl_delta : delta = ring_distance (vcross u v) c a p. Proof. unfold delta. rewrite Hn. reflexivity. Qed.
Lemma pl_scale k : Rabs (cl_mu s * cl_current s / (4 * PI)) * (4 * PI ^ 2 / INR N * k) = Rabs (cl_mu s * cl_current s) * PI / INR N * k.
Proof. rewrite k_abs. pose proof PI_RGT_0. assert (0 < INR N) by (apply lt_0_INR; destruct N; [|lia]; cbn in HN; nra). field. lra. Qed.
Lemma pl_wire : every_segment (off_line p) (lc_nodes w) -> forall W, is_circle_integral (biot_savart p) c u v a W ->
  exists B, lc_flux_density w p = Ok (Some B) /\ vnorm (vsub B (vscal (cl_mu s * cl_current s / (4 * PI)) W)) <= Rabs (cl_mu s * cl_current s) * PI / INR N * (8 * a / delta ^ 2 + 256 * a ^ 2 / delta ^ 3).
Proof.
  intros O W HW. destruct (line_biot_savart w p Hw O) as (V & HV & HB). eexists. split; [exact HB|]. rewrite <- pl_scale. apply scaled_near.
  pose proof HN as HN'. pose proof Hd as Hd'. rewrite pl_delta in *. exact (poly_B c u v p a HO Ha N HN' Hd' V W HV HW).
Qed.
Lemma polygon_loop_B : 1 / 10 ^ 6 <= axis_distance n c p ^ 2 / (a ^ 2 + axis_height n c p ^ 2) -> every_segment (off_line p) (lc_nodes w) ->
  exists B B', lc_flux_density w p = Ok (Some B) /\ loop_flux_density s "cartesian"%string p = Ok B' /\
    vnorm (vsub B B') <= Rabs (cl_mu s * cl_current s) * PI / INR N * (8 * a / delta ^ 2 + 256 * a ^ 2 / delta ^ 3).
Proof.
  intros Br O. pose proof Hd as Hd'. rewrite pl_delta in Hd'. pose proof (ring_pos' c u v p a Hd') as Off. rewrite <- Hn in Off.
  destruct (loop_biot_savart s u v p Ha HO Hn HP Br Off) as (W & HW & HB). destruct (pl_wire O W HW) as (B & E & K). exists B. eexists. split; [exact E|]. split; [exact HB|exact K].
Qed.
Lemma polygon_loop_B_axis : axis_distance n c p ^ 2 / (a ^ 2 + axis_height n c p ^ 2) < 1 / 10 ^ 6 -> every_segment (off_line p) (lc_nodes w) ->
  exists B B', lc_flux_density w p = Ok (Some B) /\ loop_flux_density s "cartesian"%string p = Ok B' /\
    vnorm (vsub B B') <= Rabs (cl_mu s * cl_current s) * PI / INR N * (8 * a / delta ^ 2 + 256 * a ^ 2 / delta ^ 3) +
      260 * Rabs (cl_mu s * cl_current s) * a ^ 2 * Rabs (axis_height n c p) * axis_distance n c p ^ 5 / sqrt (a ^ 2 + axis_height n c p ^ 2) ^ 9.
Proof.
  intros Br O. destruct (loop_small_B5 s u v p Ha HO Hn HP Br) as (W & B' & HW & HB & K'). destruct (pl_wire O W HW) as (B & E & K). exists B, B'. split; [exact E|]. split; [exact HB|].
  fold n c a in K'. set (x := vscal (cl_mu s * cl_current s / (4 * PI)) W) in *. replace (vsub B B') with (vsub (vsub B x) (vsub B' x)) by (destruct B, B', x; vring).
  eapply Rle_trans; [apply vnorm_sub_le|]. apply Rplus_le_compat; [exact K|exact K'].
Qed.
Lemma polygon_loop_A : 1 / 10 ^ 6 <= axis_distance n c p ^ 2 / (a ^ 2 + axis_height n c p ^ 2) ->
  exists A A', lc_vector_potential w p = Ok A /\ loop_vector_potential s "cartesian"%string p = Ok A' /\
    vnorm (vsub A A') <= Rabs (cl_mu s * cl_current s) * PI / INR N * (4 * a / delta + 32 * a ^ 2 / delta ^ 2).
Proof.
  intros Br. pose proof Hd as Hd'. pose proof HN as HN'. rewrite pl_delta in Hd', HN'. pose proof (ring_pos' c u v p a Hd') as Off. rewrite <- Hn in Off.
  destruct (loop_line_integral s u v p Ha HO Hn HP Br Off) as (W & HW & HB).
  destruct (line_vector_potential w p Hw (poly_segments c u v p a HO Ha N HN' Hd' N 0)) as (V & HV & E). do 2 eexists. split; [exact E|]. split; [exact HB|].
  rewrite <- pl_scale. apply scaled_near. rewrite pl_delta. exact (poly_A c u v p a HO Ha N HN' Hd' V W HV HW).
Qed.
End PolyLoop.
