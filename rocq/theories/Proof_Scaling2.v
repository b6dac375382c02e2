(** Similitude: static sources and gravity. *)
From Coq Require Import Reals Lra Lia String List Classical.
From Coquelicot Require Import Coquelicot.
From Verif Require Import Vec3 Numpy Model_Spatial Model_Prism Model_Static Model_Gravity Spec_Static Spec_Scaling
  Spec_Loop Proof_Static3 Proof_Loop2 Proof_Line Proof_Line2 Proof_Sphere Proof_Gravity Proof_Scaling.
Import ListNotations.
Open Scope R_scope.

Section Scale.
Variable a : R.
Hypothesis A : 0 < a.
Notation sc := (vscal a).

Lemma frac_scale (n : nat) k x r : k / (x * (a * r) ^ n) = / a ^ n * (k / (x * r ^ n)).
Proof. rewrite Rpow_mult_distr. unfold Rdiv. replace (x * (a ^ n * r ^ n)) with (a ^ n * (x * r ^ n)) by ring. rewrite Rinv_mult. ring. Qed.
Lemma md_scale m o c mu p :
  md_A (MD m o (sc c) mu) (sc p) = vscal (/ a ^ 2) (md_A (MD m o c mu) p) /\
  md_B (MD m o (sc c) mu) (sc p) = vscal (/ a ^ 3) (md_B (MD m o c mu) p) /\
  mp_B (MD m o (sc c) mu) (sc p) = vscal (/ a ^ 2) (mp_B (MD m o c mu) p).
Proof.
  unfold md_A, md_B, mp_B. cbn [md_moment md_orient md_loc md_mu]. rewrite sub_scale, norm_scale, hat_scale, !frac_scale by exact A.
  rewrite !vscal_vscal. auto.
Qed.

(** loop *)
Lemma hyp2_scale x y : hyp2 (a * x) (a * y) = a * hyp2 x y.
Proof. unfold hyp2. replace ((a * x) ^ 2 + (a * y) ^ 2) with (a ^ 2 * (x ^ 2 + y ^ 2)) by ring. rewrite sqrt_mult_alt, sqrt_pow2 by (try apply pow_le; lra). reflexivity. Qed.
Lemma atan2_scale y x : atan2 (a * y) (a * x) = atan2 y x.
Proof.
  unfold atan2.
  destruct (Rlt_dec 0 (a * x)), (Rlt_dec 0 x); try (exfalso; nra); [f_equal; field; split; lra|].
  destruct (Rlt_dec (a * x) 0), (Rlt_dec x 0); try (exfalso; nra).
  - replace (a * y / (a * x)) with (y / x) by (field; lra). destruct (Rle_dec 0 (a * y)), (Rle_dec 0 y); try (exfalso; nra); reflexivity.
  - destruct (Rlt_dec 0 (a * y)), (Rlt_dec 0 y); try (exfalso; nra); [reflexivity|]. destruct (Rlt_dec (a * y) 0), (Rlt_dec y 0); try (exfalso; nra); reflexivity.
Qed.
Lemma local_scale comp comp' k q : comp' (a * hyp2 (vx q) (vy q)) (a * vz q) = vscal k (comp (hyp2 (vx q) (vy q)) (vz q)) ->
  local comp' (sc q) = vscal k (local comp q).
Proof.
  intros E. unfold local. replace (vx (sc q)) with (a * vx q) by reflexivity. replace (vy (sc q)) with (a * vy q) by reflexivity. replace (vz (sc q)) with (a * vz q) by reflexivity.
  rewrite hyp2_scale, atan2_scale, E. destruct (comp (hyp2 (vx q) (vy q)) (vz q)). apply vec3_eq; vunf; ring.
Qed.
Lemma frame_scale comp comp' k r r' I o c mu p :
  (forall rho z, comp' (a * rho) (a * z) = vscal k (comp rho z)) ->
  cl_in_frame comp' (CL r' I o (sc c) mu) (sc p) = rmap (vscal k) (cl_in_frame comp (CL r I o c mu) p).
Proof.
  intros E. destruct (rotation_matrix_v o (V3 0 0 1) default_tol) as [M|e] eqn:R.
  - rewrite (cl_frame comp' (CL r' I o (sc c) mu) (sc p) M R), (cl_frame comp (CL r I o c mu) p M R). cbn [cl_loc rmap rbind].
    rewrite sub_scale, mvec_scal, (local_scale comp comp' k) by (try exact A; apply E). rewrite mvec_scal. reflexivity.
  - unfold cl_in_frame. cbn [cl_orient]. rewrite R. reflexivity.
Qed.
Lemma sq_scale x y : (a * x + a * y) ^ 2 = a ^ 2 * (x + y) ^ 2 /\ (a * x - a * y) ^ 2 = a ^ 2 * (x - y) ^ 2.
Proof. split; ring. Qed.
Lemma div_scale x y : a ^ 2 * x / (a ^ 2 * y) = x / y.
Proof. destruct (Req_dec y 0) as [->|Y]; [unfold Rdiv; rewrite Rmult_0_r, Rinv_0; ring|field; split; lra]. Qed.
Lemma sqrt_scale x : sqrt (a ^ 2 * x) = a * sqrt x.
Proof. rewrite sqrt_mult_alt, sqrt_pow2 by (try apply pow_le; lra). reflexivity. Qed.
Lemma small_scale r rho z : small_rho (a * r) (a * rho) (a * z) = small_rho r rho z.
Proof. unfold small_rho. replace ((a * rho) ^ 2) with (a ^ 2 * rho ^ 2) by ring. replace ((a * r) ^ 2 + (a * z) ^ 2) with (a ^ 2 * (r ^ 2 + z ^ 2)) by ring. now rewrite div_scale. Qed.
Lemma inv_scale n x y : x / (a ^ n * y) = / a ^ n * (x / y).
Proof. unfold Rdiv. rewrite Rinv_mult. ring. Qed.

Ltac prep :=
  match goal with |- context [(a * ?r + a * ?rho) ^ 2 + (a * ?z) ^ 2] =>
    replace ((a * r + a * rho) ^ 2 + (a * z) ^ 2) with (a ^ 2 * ((r + rho) ^ 2 + z ^ 2)) by ring;
    replace ((a * r - a * rho) ^ 2 + (a * z) ^ 2) with (a ^ 2 * ((r - rho) ^ 2 + z ^ 2)) by ring;
    rewrite ?div_scale, ?sqrt_scale;
    generalize (ellipk (1 - ((r - rho) ^ 2 + z ^ 2) / ((r + rho) ^ 2 + z ^ 2)));
    generalize (ellipe (1 - ((r - rho) ^ 2 + z ^ 2) / ((r + rho) ^ 2 + z ^ 2))); intros ? ? end.
Lemma Aphi_scale r C rho z : small_rho r rho z = false -> cl_A_phi (a * r) C (a * rho) (a * z) = cl_A_phi r C rho z.
Proof.
  intros S. unfold cl_A_phi. rewrite small_scale, S. prep.
  replace (2 * (a * rho) * (a * sqrt ((r + rho) ^ 2 + z ^ 2))) with (a ^ 2 * (2 * rho * sqrt ((r + rho) ^ 2 + z ^ 2))) by ring.
  rewrite inv_scale. generalize (C / (2 * rho * sqrt ((r + rho) ^ 2 + z ^ 2))). intros k. field. lra.
Qed.
Lemma Brho_scale r C rho z : cl_B_rho (a * r) C (a * rho) (a * z) = / a * cl_B_rho r C rho z.
Proof.
  unfold cl_B_rho. rewrite small_scale. prep. destruct (small_rho r rho z).
  - replace ((a * r) ^ 2 + (a * z) ^ 2) with (a ^ 2 * (r ^ 2 + z ^ 2)) by ring. rewrite sqrt_scale.
    replace (4 * (a * sqrt (r ^ 2 + z ^ 2)) ^ 5) with (a ^ 5 * (4 * sqrt (r ^ 2 + z ^ 2) ^ 5)) by ring.
    replace (32 * (a * sqrt (r ^ 2 + z ^ 2)) ^ 9) with (a ^ 9 * (32 * sqrt (r ^ 2 + z ^ 2) ^ 9)) by ring.
    rewrite !inv_scale. unfold Rdiv. generalize (/ (4 * sqrt (r ^ 2 + z ^ 2) ^ 5)) (/ (32 * sqrt (r ^ 2 + z ^ 2) ^ 9)). intros k l. field. lra.
  - replace (2 * (a ^ 2 * ((r - rho) ^ 2 + z ^ 2)) * (a * sqrt ((r + rho) ^ 2 + z ^ 2)) * (a * rho)) with (a ^ 4 * (2 * ((r - rho) ^ 2 + z ^ 2) * sqrt ((r + rho) ^ 2 + z ^ 2) * rho)) by ring.
    rewrite inv_scale. unfold Rdiv. generalize (/ (2 * ((r - rho) ^ 2 + z ^ 2) * sqrt ((r + rho) ^ 2 + z ^ 2) * rho)). intros k. field. lra.
Qed.
Lemma Bz_scale r C rho z : cl_B_z (a * r) C (a * rho) (a * z) = / a * cl_B_z r C rho z.
Proof.
  unfold cl_B_z. prep.
  replace (2 * (a ^ 2 * ((r - rho) ^ 2 + z ^ 2)) * (a * sqrt ((r + rho) ^ 2 + z ^ 2))) with (a ^ 3 * (2 * ((r - rho) ^ 2 + z ^ 2) * sqrt ((r + rho) ^ 2 + z ^ 2))) by ring.
  rewrite inv_scale. unfold Rdiv. generalize (/ (2 * ((r - rho) ^ 2 + z ^ 2) * sqrt ((r + rho) ^ 2 + z ^ 2))). intros k. field. lra.
Qed.
Lemma loop_B_scale r I o c mu p :
  loop_flux_density (CL (a * r) I o (sc c) mu) "cartesian" (sc p) = rmap (vscal (/ a)) (loop_flux_density (CL r I o c mu) "cartesian" p).
Proof.
  unfold loop_flux_density. rewrite !with_loop_eq by (left; reflexivity). rewrite !with_coordinates_cart by reflexivity. unfold cl_B. cbn [cl_radius cl_mu cl_current]. apply frame_scale. intros rho z.
  rewrite Brho_scale, Bz_scale. apply vec3_eq; vunf; ring.
Qed.
Lemma loop_A_scale r I o c mu p : proper_axis o ->
  small_rho r (axis_distance o c p) (axis_height o c p) = false ->
  loop_vector_potential (CL (a * r) I o (sc c) mu) "cartesian" (sc p) = loop_vector_potential (CL r I o c mu) "cartesian" p.
Proof.
  intros PA S. destruct (loop_rot o PA) as (M & R & RM & MN). unfold loop_vector_potential. rewrite !with_coordinates_cart by reflexivity. unfold cl_A. cbn [cl_radius cl_mu cl_current].
  rewrite (cl_frame _ (CL (a * r) I o (sc c) mu) (sc p) M R), (cl_frame _ (CL r I o c mu) p M R). cbn [cl_loc].
  rewrite <- (frame_height M o c p RM MN), <- (frame_rho M o c p RM MN) in S. cbv zeta in S.
  rewrite sub_scale, mvec_scal by exact A. do 2 f_equal.
  rewrite (local_scale (fun rho z => V3 0 (cl_A_phi r (mu * I / PI) rho z) 0) _ 1); [|rewrite Aphi_scale by exact S; apply vec3_eq; vunf; ring].
  generalize (local (fun rho z => V3 0 (cl_A_phi r (mu * I / PI) rho z) 0) (mvec M (vsub p c))). intros v. apply vec3_eq; vunf; ring.
Qed.

(** wires *)
Lemma udir_scale p q : udir (sc p) (sc q) = udir p q.
Proof. unfold udir. rewrite sub_scale, norm_scale, hat_scale by exact A. reflexivity. Qed.
Lemma Xc_scale p q n x : Xc (sc p) (sc q) (sc n) (sc x) = a * Xc p q n x.
Proof. unfold Xc. rewrite udir_scale, sub_scale by exact A. destruct (udir p q), (vsub x n). vunf. ring. Qed.
Lemma sc_inj p q : sc p = sc q -> p = q.
Proof. destruct p as [x y z], q as [x' y' z']. unfold vscal. cbn. intros E. injection E as E1 E2 E3. apply vec3_eq; cbn; nra. Qed.
Lemma proper_scale p q : proper_segment p q -> proper_segment (sc p) (sc q).
Proof.
  intros (N & P). split; [intro E; apply N, sc_inj, E|]. cbv zeta in *.
  assert (L : 0 < vnorm (vsub q p)) by (apply vnorm_pos; intro E; apply N; destruct p, q; unfold vsub, vzero in E; cbn in E; injection E as ? ? ?; apply vec3_eq; cbn; lra).
  replace (vscal (/ vnorm (vsub (sc q) (sc p))) (vsub (sc q) (sc p))) with (vscal (/ vnorm (vsub q p)) (vsub q p)); [exact P|].
  rewrite sub_scale, norm_scale, vscal_vscal by exact A. f_equal. field. split; lra.
Qed.
Lemma on_seg_scale p q s : on_seg (sc p) (sc q) s = sc (on_seg p q s).
Proof. unfold on_seg. destruct p, q. vring. Qed.
Lemma off_scale x p q : off_segment x p q -> off_segment (sc x) (sc p) (sc q).
Proof. intros O s S E. rewrite on_seg_scale in E. apply (O s S), sc_inj, E. Qed.
Lemma fz_scale x p q : proper_segment p q -> off_segment x p q ->
  fz (a * Xc p q p x) (a * vnorm (vsub x p)) - fz (a * Xc p q q x) (a * vnorm (vsub x q)) = fz (Xc p q p x) (vnorm (vsub x p)) - fz (Xc p q q x) (vnorm (vsub x q)).
Proof.
  intros P O. pose proof (seg_int_A p q x P O) as I1. pose proof (seg_int_A (sc p) (sc q) (sc x) (proper_scale _ _ P) (off_scale _ _ _ O)) as I2.
  rewrite !Xc_scale, !sub_scale, !norm_scale in I2 by exact A. cbv zeta in I1, I2.
  enough (E : fz (a * Xc p q q x) (a * vnorm (vsub x q)) - fz (a * Xc p q p x) (a * vnorm (vsub x p)) = fz (Xc p q q x) (vnorm (vsub x q)) - fz (Xc p q p x) (vnorm (vsub x p))) by lra.
  rewrite <- (is_RInt_unique _ _ _ _ I1), <- (is_RInt_unique _ _ _ _ I2). apply RInt_ext. intros s _.
  rewrite on_seg_scale, sub_scale, norm_scale by exact A.
  match goal with |- ?x = ?y => change (@eq R x y) end. destruct (Req_dec (vnorm (vsub x (on_seg p q s))) 0) as [E|E]; [rewrite E, Rmult_0_r; unfold Rdiv; rewrite Rinv_0; ring|]. field. split; [exact E|lra].
Qed.
Lemma gA_scale x p q : proper_segment p q -> off_segment x p q -> gA (sc x) (sc p) (sc q) = gA x p q.
Proof. intros P O. unfold gA. rewrite !Xc_scale, !sub_scale, !norm_scale, udir_scale, fz_scale by assumption. reflexivity. Qed.
Lemma seg_map (P Q : vec3 -> vec3 -> Prop) nodes : (forall p q, P p q -> Q (sc p) (sc q)) -> every_segment P nodes -> every_segment Q (map sc nodes).
Proof. intros H. induction nodes as [|p [|q l] IH]; auto. cbn. intros (P1 & P2). split; [apply H, P1|apply IH, P2]. Qed.
Lemma wsum_scale k (g g' : vec3 -> vec3 -> vec3) nodes : every_segment (fun p q => g' (sc p) (sc q) = vscal k (g p q)) nodes -> wsum g' (map sc nodes) = vscal k (wsum g nodes).
Proof.
  induction nodes as [|p [|q l] IH]; try (intros; cbn; now rewrite vscal_0). intros (E & R). specialize (IH R).
  cbn [map] in *. change (wsum g' (sc p :: sc q :: map sc l)) with (vadd (g' (sc p) (sc q)) (wsum g' (sc q :: map sc l))). change (wsum g (p :: q :: l)) with (vadd (g p q) (wsum g (q :: l))).
  now rewrite IH, E, vscal_add.
Qed.
Lemma wire_A_scale nodes I sg mu x : proper_wire nodes -> every_segment (off_segment x) nodes ->
  lc_vector_potential (LC (map sc nodes) I sg mu) (sc x) = lc_vector_potential (LC nodes I sg mu) x.
Proof.
  intros P O. rewrite !A_value; cbn [lc_nodes lc_mu lc_current]; [|exact P|apply (seg_map proper_segment); [apply proper_scale|exact P]].
  do 2 f_equal. rewrite (wsum_scale 1 (gA x)).
  - generalize (wsum (gA x) nodes). intros v. apply vec3_eq; vunf; ring.
  - eapply every_segment_impl; [|apply (every_segment_and _ _ _ P O)]. intros p q (P1 & O1). cbn beta. rewrite gA_scale by assumption. generalize (gA x p q). intros v. apply vec3_eq; vunf; ring.
Qed.
Lemma off_line_scale x p q : off_line (sc x) (sc p) (sc q) <-> off_line x p q.
Proof.
  unfold off_line. rewrite !sub_scale. replace (vcross (sc (vsub q p)) (sc (vsub x p))) with (vscal (a * a) (vcross (vsub q p) (vsub x p))) by (destruct (vsub q p), (vsub x p); vring).
  generalize (vcross (vsub q p) (vsub x p)). intros v. split; intros H E; apply H.
  - rewrite E. apply vec3_eq; vunf; ring.
  - destruct v as [v1 v2 v3]. unfold vscal, vzero in E. cbn in E. injection E as E1 E2 E3. assert (0 < a * a) by nra. apply vec3_eq; cbn; nra.
Qed.
Lemma gB_scale x p q : proper_segment p q -> off_line x p q -> gB (sc x) (sc p) (sc q) = vscal (/ a) (gB x p q).
Proof.
  intros P O. apply (off_line_perp p q x P) in O. unfold gB, tB, perp2 in *. rewrite !Xc_scale, !sub_scale, !norm_scale, udir_scale by exact A.
  replace (vdot (sc (vsub x p)) (sc (vsub x p))) with (a * a * vdot (vsub x p) (vsub x p)) by (destruct (vsub x p); vunf; ring).
  replace (a * a * vdot (vsub x p) (vsub x p) - a * Xc p q p x * (a * Xc p q p x)) with (a * a * (vdot (vsub x p) (vsub x p) - Xc p q p x * Xc p q p x)) by ring.
  assert (D : forall x r, a * x / (a * r) = x / r).
  { intros y r. destruct (Req_dec r 0) as [->|R]; [unfold Rdiv; rewrite Rmult_0_r, Rinv_0; ring|field; split; lra]. }
  rewrite !D. replace (vcross (udir p q) (sc (vsub x p))) with (sc (vcross (udir p q) (vsub x p))) by (destruct (udir p q), (vsub x p); vring).
  rewrite !vscal_vscal. f_equal. generalize dependent (vdot (vsub x p) (vsub x p) - Xc p q p x * Xc p q p x). intros d O. generalize (Xc p q q x / vnorm (vsub x q) - Xc p q p x / vnorm (vsub x p)). intros t. field. split; lra.
Qed.
Lemma wire_B_scale nodes I sg mu x : proper_wire nodes ->
  lc_flux_density (LC (map sc nodes) I sg mu) (sc x) = rmap (option_map (vscal (/ a))) (lc_flux_density (LC nodes I sg mu) x).
Proof.
  intros P. assert (P' : proper_wire (map sc nodes)) by (apply (seg_map proper_segment); [apply proper_scale|exact P]).
  destruct (classic (every_segment (off_line x) nodes)) as [O|O].
  - rewrite (B_value (LC nodes I sg mu)), B_value; cbn [lc_nodes lc_mu lc_current]; try assumption; [|apply (seg_map (off_line x)); [intros p q; apply off_line_scale|exact O]].
    cbn [rmap rbind option_map]. do 2 f_equal. rewrite (wsum_scale (/ a) (gB x)); [rewrite !vscal_vscal; f_equal; ring|].
    eapply every_segment_impl; [|apply (every_segment_and _ _ _ P O)]. intros p q (P1 & O1). apply gB_scale; assumption.
  - rewrite (B_none (LC nodes I sg mu)), B_none; cbn [lc_nodes]; try assumption; [reflexivity|].
    intros O'. apply O. clear -A O'. induction nodes as [|p [|q l] IH]; try exact Logic.I. destruct O' as (O1 & O2). split; [apply off_line_scale, O1|apply IH, O2].
Qed.
Lemma vall_scale p q : vall_eq (sc p) (sc q) = vall_eq p q.
Proof.
  assert (R : forall x y, Reqb (a * x) (a * y) = Reqb x y).
  { intros x y. unfold Reqb. destruct (Req_EM_T (a * x) (a * y)), (Req_EM_T x y); try reflexivity; exfalso; [apply n; nra|apply n; now subst]. }
  unfold vall_eq. cbn [vscal vx vy vz]. now rewrite !R.
Qed.
Lemma hd_scale l : hd vzero (map sc l) = sc (hd vzero l).
Proof. destruct l; [cbn; now rewrite vscal_0|reflexivity]. Qed.
Lemma last_scale l : last (map sc l) vzero = sc (last l vzero).
Proof. induction l as [|p [|q l] IH]; [cbn; now rewrite vscal_0|reflexivity|]. cbn [map] in *. exact IH. Qed.
Lemma cube_scale v : vdiv (sc v) ((a * vnorm v) ^ 3) = vscal (/ a ^ 2) (vdiv v (vnorm v ^ 3)).
Proof.
  destruct (Req_dec (vnorm v) 0) as [E|E].
  - rewrite E. apply vnorm_eq0 in E. subst v. unfold vdiv. apply vec3_eq; vunf; unfold Rdiv; ring.
  - unfold vdiv. apply vec3_eq; vunf; field; lra.
Qed.
Lemma pot_scale nodes I sg mu x :
  lc_scalar_potential (LC (map sc nodes) I sg mu) (sc x) = / a * lc_scalar_potential (LC nodes I sg mu) x.
Proof.
  unfold lc_scalar_potential, n_segments, first_node, last_node. cbn [lc_nodes lc_current lc_sigma]. rewrite map_length, hd_scale, last_scale, vall_scale, !sub_scale, !norm_scale by exact A.
  assert (D : forall k r, k / (a * r) = / a * (k / r)) by (intros; unfold Rdiv; rewrite Rinv_mult; ring).
  destruct (Nat.eqb _ 0); [replace (4 * PI * sg * (a * vnorm (vsub x (hd vzero nodes)))) with (a * (4 * PI * sg * vnorm (vsub x (hd vzero nodes)))) by ring; apply D|].
  destruct (vall_eq _ _); [ring|]. rewrite !D. ring.
Qed.
Lemma elec_scale nodes I sg mu x :
  lc_electric_field (LC (map sc nodes) I sg mu) (sc x) = vscal (/ a ^ 2) (lc_electric_field (LC nodes I sg mu) x).
Proof.
  unfold lc_electric_field, n_segments, first_node, last_node. cbn [lc_nodes lc_current lc_sigma]. rewrite map_length, hd_scale, last_scale, vall_scale, !sub_scale, !norm_scale, !cube_scale by exact A.
  destruct (Nat.eqb _ 0); [rewrite !vscal_vscal; f_equal; ring|]. destruct (vall_eq _ _); [now rewrite vscal_0|].
  generalize (vdiv (vsub x (last nodes vzero)) (vnorm (vsub x (last nodes vzero)) ^ 3)) (vdiv (vsub x (hd vzero nodes)) (vnorm (vsub x (hd vzero nodes)) ^ 3)). intros u v. apply vec3_eq; vunf; ring.
Qed.
Lemma cden_scale nodes I sg mu x :
  lc_current_density (LC (map sc nodes) I sg mu) (sc x) = vscal (/ a ^ 2) (lc_current_density (LC nodes I sg mu) x).
Proof. unfold lc_current_density. rewrite elec_scale, !vscal_vscal. cbn [lc_sigma]. f_equal. ring. Qed.

(** electrodes at and below the surface *)
Lemma mirror_scale v : mirror (sc v) = sc (mirror v).
Proof. destruct v. unfold mirror. vring. Qed.
Lemma hsV_scale rho I c p : hs_V (HS rho I (sc c)) (sc p) = / a * hs_V (HS rho I c) p.
Proof.
  unfold hs_V, pc_potential, hs_primary, hs_image, point_current. cbn [hs_rho hs_current hs_loc]. rewrite mirror_scale.
  change [sc c] with (map sc [c]). change [sc (mirror c)] with (map sc [mirror c]). rewrite !pot_scale. ring.
Qed.
Lemma hsE_scale rho I c p : hs_E (HS rho I (sc c)) (sc p) = vscal (/ a ^ 2) (hs_E (HS rho I c) p).
Proof.
  unfold hs_E, pc_electric_field, hs_primary, hs_image, point_current. cbn [hs_rho hs_current hs_loc]. rewrite mirror_scale.
  change [sc c] with (map sc [c]). change [sc (mirror c)] with (map sc [mirror c]). rewrite !elec_scale. symmetry. apply vscal_add.
Qed.
Lemma above_scale pts : any_above (map sc pts) = any_above pts.
Proof.
  unfold any_above. induction pts as [|p l IH]; [reflexivity|]. cbn [map existsb]. rewrite IH. f_equal. unfold Rltb. replace (vz (sc p)) with (a * vz p) by reflexivity.
  destruct (Rlt_dec 0 (a * vz p)), (Rlt_dec 0 (vz p)); try reflexivity; exfalso; nra.
Qed.
Lemma hs_pot_scale rho I c pts : hs_potential (HS rho I (sc c)) (map sc pts) = rmap (map (Rmult (/ a))) (hs_potential (HS rho I c) pts).
Proof. unfold hs_potential. rewrite above_scale. destruct (any_above pts); [reflexivity|]. cbn [rmap rbind]. f_equal. rewrite !map_map. apply map_ext. intros p. apply hsV_scale. Qed.
Lemma hs_el_scale rho I c pts : hs_electric_field (HS rho I (sc c)) (map sc pts) = rmap (map (vscal (/ a ^ 2))) (hs_electric_field (HS rho I c) pts).
Proof. unfold hs_electric_field. rewrite above_scale. destruct (any_above pts); [reflexivity|]. cbn [rmap rbind]. f_equal. rewrite !map_map. apply map_ext. intros p. apply hsE_scale. Qed.
Lemma hs_cd_scale rho I c pts : hs_current_density (HS rho I (sc c)) (map sc pts) = rmap (map (vscal (/ a ^ 2))) (hs_current_density (HS rho I c) pts).
Proof.
  unfold hs_current_density. rewrite hs_el_scale. cbn [hs_rho]. destruct (hs_electric_field (HS rho I c) pts); [|reflexivity]. cbn [rmap rbind]. f_equal. rewrite !map_map. apply map_ext. intros v. unfold vdiv. apply vec3_eq; vunf; unfold Rdiv; ring.
Qed.
Lemma zip_sub_scale k : forall u v, zip_sub (map (Rmult k) u) (map (Rmult k) v) = map (Rmult k) (zip_sub u v).
Proof. unfold zip_sub. induction u as [|x u IH]; intros [|y v]; try reflexivity. cbn. rewrite IH. f_equal. ring. Qed.
Lemma zip_vsub_scale k : forall u v, zip_vsub (map (vscal k) u) (map (vscal k) v) = map (vscal k) (zip_vsub u v).
Proof. unfold zip_vsub. induction u as [|x u IH]; intros [|y v]; try reflexivity. cbn. rewrite IH. f_equal. destruct x, y. vring. Qed.
Lemma dh_pot_scale rho I c d m n :
  dh_potential (DHS rho I (sc c) (sc d)) (map sc m) (option_map (map sc) n) = rmap (map (Rmult (/ a))) (dh_potential (DHS rho I c d) m n).
Proof.
  unfold dh_potential, dh_sa, dh_sb. cbn [dh_rho dh_current dh_a dh_b]. rewrite above_scale. destruct (any_above m) eqn:AM; [reflexivity|].
  destruct n as [n|]; cbn [option_map]; [rewrite above_scale; destruct (any_above n) eqn:AN; [reflexivity|]|]; rewrite !hs_pot_scale; unfold hs_potential; rewrite ?AM, ?AN; cbn [rmap rbind]; rewrite ?zip_sub_scale; reflexivity.
Qed.
Lemma dh_el_scale rho I c d m n :
  dh_electric_field (DHS rho I (sc c) (sc d)) (map sc m) (option_map (map sc) n) = rmap (map (vscal (/ a ^ 2))) (dh_electric_field (DHS rho I c d) m n).
Proof.
  unfold dh_electric_field, dh_sa, dh_sb. cbn [dh_rho dh_current dh_a dh_b]. rewrite above_scale. destruct (any_above m) eqn:AM; [reflexivity|].
  destruct n as [n|]; cbn [option_map]; [rewrite above_scale; destruct (any_above n) eqn:AN; [reflexivity|]|]; rewrite !hs_el_scale; unfold hs_electric_field; rewrite ?AM, ?AN; cbn [rmap rbind]; rewrite ?zip_vsub_scale; reflexivity.
Qed.
Lemma dh_cd_scale rho I c d m n :
  dh_current_density (DHS rho I (sc c) (sc d)) (map sc m) (option_map (map sc) n) = rmap (map (vscal (/ a ^ 2))) (dh_current_density (DHS rho I c d) m n).
Proof.
  unfold dh_current_density. rewrite dh_el_scale. cbn [dh_rho]. destruct (dh_electric_field (DHS rho I c d) m n); [|reflexivity]. cbn [rmap rbind]. f_equal. rewrite !map_map. apply map_ext. intros v. unfold vdiv. apply vec3_eq; vunf; unfold Rdiv; ring.
Qed.
End Scale.
