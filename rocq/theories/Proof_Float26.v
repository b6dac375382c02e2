(** Current electrodes in a half-space in floating point (C147). *)
From Coq Require Import ZArith Reals Lra Lia Psatz List.
From Flocq Require Import Core.
From Verif Require Import Vec3 Numpy Model_Static Model_Float Model_Float13 Spec_Float
  Proof_Spatial Proof_Float Proof_Float2 Proof_Float3 Proof_Float9 Proof_Float13 Proof_Float14 Proof_Float18 Proof_Float21.
Open Scope R_scope.

Lemma pole_ae rho current loc p : Rabs (fhs_potential rho current loc p - hs_V (HS rho current loc) p) <= 12 * u * Rabs (hs_V (HS rho current loc) p).
Proof. exact (near_within' 12 11 _ _ ltac:(lia) ltac:(rewrite INR_IZR_INZ; cbn; lra) (half_space_near rho current loc p)). Qed.
Lemma sub_ae c a A b B M K : 0 <= c <= 1000 -> Rabs A <= M -> Rabs B <= K -> Rabs (a - A) <= c * u * M -> Rabs (b - B) <= c * u * K -> Rabs (fl (a - b) - (A - B)) <= (c + 3) * u * (M + K).
Proof.
  intros C HA HB Ha Hb. pose proof (ae_round c (M + K) (a - b) (A - B) ltac:(lra) (ae_sub c M K a A b B (conj Ha HA) (conj Hb HB))) as [H _]. exact H.
Qed.
Section Pair.
  Variable s : dhsp.
  Let VA := hs_V (dh_sa s). Let VB := hs_V (dh_sb s).
  Lemma pair_ae p : Rabs (fdh_pair s p - (VA p - VB p)) <= 15 * u * (Rabs (VA p) + Rabs (VB p)).
  Proof. unfold fdh_pair. replace 15 with (12 + 3) by lra. apply sub_ae; try lra; apply pole_ae. Qed.
  Lemma four_ae m n : Rabs (fl (fdh_pair s m - fdh_pair s n) - (VA m - VB m - (VA n - VB n))) <= 18 * u * (Rabs (VA m) + Rabs (VB m) + (Rabs (VA n) + Rabs (VB n))).
  Proof.
    replace 18 with (15 + 3) by lra. assert (T : forall x y, Rabs (x - y) <= Rabs x + Rabs y) by (intros x y; pose proof (Rabs_triang x (- y)) as T; rewrite Rabs_Ropp in T; exact T).
    apply sub_ae; [lra|apply T|apply T|apply pair_ae|apply pair_ae].
  Qed.
End Pair.

(** exchanging electrodes *)
Lemma fl_sub_swap a b : fl (a - b) = - fl (b - a). Proof. rewrite <- fl_opp. f_equal. ring. Qed.
Lemma fnorm_sym p q : fnorm (fdiff p q) = fnorm (fdiff q p).
Proof.
  unfold fnorm, fdiff. cbn [vx vy vz]. rewrite (fl_sub_swap (vx p)), (fl_sub_swap (vy p)), (fl_sub_swap (vz p)), !Rmult_opp_opp. reflexivity.
Qed.
Lemma image_sym p q : fnorm (fdiff p (V3 (vx q) (vy q) (vz q * -1))) = fnorm (fdiff q (V3 (vx p) (vy p) (vz p * -1))).
Proof.
  unfold fnorm, fdiff. cbn [vx vy vz]. rewrite (fl_sub_swap (vx p)), (fl_sub_swap (vy p)), !Rmult_opp_opp. replace (vz p - vz q * -1) with (vz q - vz p * -1) by ring. reflexivity.
Qed.
Lemma pole_reciprocal rho current a m : fhs_potential rho current a m = fhs_potential rho current m a.
Proof. unfold fhs_potential, fpc_potential. rewrite (fnorm_sym m a), (image_sym m a). reflexivity. Qed.

(** far away *)
Lemma far_diff x L y z : float x -> 0 < x -> 0 <= L <= x / 2 ^ 55 -> fdiff (V3 (- x) y z) (V3 L 0 0) = fdiff (V3 (- x) y z) (V3 0 0 0).
Proof.
  intros F P B. unfold fdiff. cbn [vx vy vz]. f_equal. replace (- x - L) with (- (x + L)) by ring. replace (- x - 0) with (- x) by ring. rewrite !fl_opp. f_equal. rewrite absorb by (try assumption; lra). symmetry. apply fl_id, F.
Qed.
Lemma far_zero rho current x L y z : float x -> 0 < x -> 0 <= L <= x / 2 ^ 55 -> fdh_pair (DHS rho current (V3 0 0 0) (V3 L 0 0)) (V3 (- x) y z) = 0.
Proof.
  intros F P B. unfold fdh_pair. cbn [dh_rho dh_current dh_a dh_b]. unfold fhs_potential, fpc_potential. cbn [vx vy vz]. replace (0 * -1) with 0 by ring. rewrite (far_diff x L y z F P B), Rminus_eq_0. apply fl0.
Qed.
Lemma pole_value rho current h p : rho <> 0 -> vsub p (V3 h 0 0) <> vzero -> hs_V (HS rho current (V3 h 0 0)) p = rho * current / (2 * PI * vnorm (vsub p (V3 h 0 0))).
Proof.
  intros NR NZ. unfold hs_V, hs_primary, hs_image, mirror. cbn [hs_rho hs_current hs_loc vx vy vz]. replace (0 * -1) with 0 by ring. rewrite !lc_one. pose proof PI_RGT_0. pose proof (vnorm_pos _ NZ). field. repeat split; lra.
Qed.
Lemma far_real rho current x L y z : rho <> 0 -> current <> 0 -> 0 < x -> 0 < L ->
  hs_V (HS rho current (V3 0 0 0)) (V3 (- x) y z) - hs_V (HS rho current (V3 L 0 0)) (V3 (- x) y z) <> 0.
Proof.
  intros NR NC P PL. assert (E : forall h, vsub (V3 (- x) y z) (V3 h 0 0) = V3 (- x - h) y z) by (intros h; unfold vsub; cbn [vx vy vz]; f_equal; ring).
  assert (NZ : forall h, 0 <= h -> V3 (- x - h) y z <> vzero) by (intros h H Z; apply V3_inj in Z; lra).
  rewrite !pole_value by (try assumption; rewrite E; apply NZ; lra). rewrite !E. set (a := vnorm (V3 (- x - 0) y z)). set (b := vnorm (V3 (- x - L) y z)).
  assert (A : 0 < a) by (apply vnorm_pos, NZ; lra). assert (B : 0 < b) by (apply vnorm_pos, NZ; lra). pose proof PI_RGT_0 as Pi.
  assert (AB : a < b). { unfold a, b, vnorm. apply sqrt_lt_1_alt. unfold vnorm2. cbn [vx vy vz]. split; nra. }
  replace (rho * current / (2 * PI * a) - rho * current / (2 * PI * b)) with (rho * current * ((b - a) / (2 * PI * a * b))) by (field; lra).
  apply Rmult_integral_contrapositive_currified; [apply Rmult_integral_contrapositive_currified; assumption|]. apply Rgt_not_eq. apply Rdiv_lt_0_compat; [lra|]. pose proof (Rmult_lt_0_compat _ _ A B). replace (2 * PI * a * b) with (2 * PI * (a * b)) by ring. apply Rmult_lt_0_compat; [lra|assumption].
Qed.
