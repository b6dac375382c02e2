(** Proofs for the integral laws, part 1: fluxes of inverse-square and dipole fields. *)
From Coq Require Import Reals Lra.
From Coquelicot Require Import Coquelicot.
From Verif Require Import Vec3 Calculus Deriv Integral Spec_Flux.
Open Scope R_scope.

Ltac eqR := match goal with |- ?a = ?b => change (@eq R a b) end.

(** squared distance from the surface point at polar angle acos u to the source *)
Definition q2 (R0 d u : R) : R := R0 ^ 2 + d ^ 2 - 2 * R0 * d * u.

Lemma q2_pos R0 d u : 0 < R0 -> Rabs d <> R0 -> -1 <= u <= 1 -> 0 < q2 R0 d u.
Proof.
  intros H N U. unfold q2.
  assert (A : (R0 - Rabs d) ^ 2 > 0). { assert (R0 - Rabs d <> 0) by lra. nra. }
  assert (B : d ^ 2 = Rabs d ^ 2) by (rewrite <- (pow2_abs d); reflexivity).
  assert (D : d * u <= Rabs d).
  { unfold Rabs. destruct (Rcase_abs d); nra. }
  nra.
Qed.

Lemma frame_norm e1 e2 e3 t p : frame e1 e2 e3 -> vdot (direction e1 e2 e3 t p) (direction e1 e2 e3 t p) = 1.
Proof.
  intros [A [B [D [E [F G]]]]].
  pose proof (sin2_cos2 t) as S1. pose proof (sin2_cos2 p) as S2. unfold Rsqr in *.
  assert (X : vdot (direction e1 e2 e3 t p) (direction e1 e2 e3 t p) =
    (sin t * cos p) ^ 2 * vdot e1 e1 + (sin t * sin p) ^ 2 * vdot e2 e2 + cos t ^ 2 * vdot e3 e3 +
    2 * (sin t * cos p) * (sin t * sin p) * vdot e1 e2 + 2 * (sin t * sin p) * cos t * vdot e2 e3 + 2 * cos t * (sin t * cos p) * vdot e3 e1)
    by (unfold direction; destruct e1, e2, e3; vunf; ring).
  rewrite X, A, B, D, E, F, G.
  replace ((sin t * cos p) ^ 2 * 1 + (sin t * sin p) ^ 2 * 1 + cos t ^ 2 * 1 + 2 * (sin t * cos p) * (sin t * sin p) * 0 + 2 * (sin t * sin p) * cos t * 0 + 2 * cos t * (sin t * cos p) * 0)
    with (sin t * sin t * (sin p * sin p + cos p * cos p) + cos t * cos t) by ring.
  rewrite S2. lra.
Qed.

Lemma frame_axis e1 e2 e3 t p : frame e1 e2 e3 -> vdot (direction e1 e2 e3 t p) e3 = cos t.
Proof.
  intros [A [B [D [E [F G]]]]].
  assert (X : vdot (direction e1 e2 e3 t p) e3 = sin t * cos p * vdot e3 e1 + sin t * sin p * vdot e2 e3 + cos t * vdot e3 e3)
    by (unfold direction; destruct e1, e2, e3; vunf; ring).
  rewrite X, D, F, G. ring.
Qed.

Lemma dir_dot e1 e2 e3 t p m : vdot (direction e1 e2 e3 t p) m = sin t * cos p * vdot e1 m + sin t * sin p * vdot e2 m + cos t * vdot e3 m.
Proof. unfold direction; destruct e1, e2, e3, m; vunf; ring. Qed.

Lemma rvec_eq c rad d n e3 : vsub (vadd c (vscal rad n)) (along c d e3) = vsub (vscal rad n) (vscal d e3).
Proof. unfold along. destruct c, n, e3; vring. Qed.

Lemma rvec_norm2 e1 e2 e3 c rad d t p : frame e1 e2 e3 ->
  vnorm2 (vsub (vadd c (vscal rad (direction e1 e2 e3 t p))) (along c d e3)) = q2 rad d (cos t).
Proof.
  intro F. rewrite rvec_eq. pose proof (frame_norm e1 e2 e3 t p F) as A. pose proof (frame_axis e1 e2 e3 t p F) as B.
  assert (E : vdot e3 e3 = 1) by apply F.
  set (n := direction e1 e2 e3 t p) in *.
  assert (X : vnorm2 (vsub (vscal rad n) (vscal d e3)) = rad ^ 2 * vdot n n + d ^ 2 * vdot e3 e3 - 2 * rad * d * vdot n e3)
    by (destruct n, e3; vunf; ring).
  rewrite X, A, B, E. unfold q2. ring.
Qed.

Lemma rvec_dot e1 e2 e3 c rad d t p : frame e1 e2 e3 ->
  vdot (vsub (vadd c (vscal rad (direction e1 e2 e3 t p))) (along c d e3)) (direction e1 e2 e3 t p) = rad - d * cos t.
Proof.
  intro F. rewrite rvec_eq. pose proof (frame_norm e1 e2 e3 t p F) as A. pose proof (frame_axis e1 e2 e3 t p F) as B.
  set (n := direction e1 e2 e3 t p) in *.
  assert (X : vdot (vsub (vscal rad n) (vscal d e3)) n = rad * vdot n n - d * vdot n e3) by (destruct n, e3; vunf; ring).
  rewrite X, A, B. ring.
Qed.

Lemma const_integral (a b k : R) : is_RInt (fun _ : R => k) a b ((b - a) * k).
Proof. exact (is_RInt_const a b k). Qed.

(** ** Linearity *)
Lemma flux_ext e1 e2 e3 c rad t0 t1 p0 p1 (J K : vec3 -> vec3) I :
  (forall t p, t0 <= t <= t1 -> J (vadd c (vscal rad (direction e1 e2 e3 t p))) = K (vadd c (vscal rad (direction e1 e2 e3 t p)))) ->
  patch_flux e1 e2 e3 c rad t0 t1 p0 p1 J I -> patch_flux e1 e2 e3 c rad t0 t1 p0 p1 K I.
Proof.
  intros E [r [A B]]. exists r. split; [|exact B]. intros t Ht. eapply is_RInt_ext; [|exact (A t Ht)].
  intros p _. cbv zeta beta. rewrite E by exact Ht. reflexivity.
Qed.

Lemma flux_add e1 e2 e3 c rad t0 t1 p0 p1 (J K : vec3 -> vec3) I L :
  patch_flux e1 e2 e3 c rad t0 t1 p0 p1 J I -> patch_flux e1 e2 e3 c rad t0 t1 p0 p1 K L ->
  patch_flux e1 e2 e3 c rad t0 t1 p0 p1 (fun q => vadd (J q) (K q)) (I + L).
Proof.
  intros [r [A B]] [s [A' B']]. exists (fun t => r t + s t). split.
  - intros t Ht. eapply is_RInt_ext; [|exact (is_RInt_plus _ _ _ _ _ _ (A t Ht) (A' t Ht))].
    intros p _. cbv zeta beta. unfold plus; cbn. eqR. unfold vdot, vadd; cbn. ring.
  - exact (is_RInt_plus _ _ _ _ _ _ B B').
Qed.

Lemma flux_scal e1 e2 e3 c rad t0 t1 p0 p1 (J : vec3 -> vec3) k I :
  patch_flux e1 e2 e3 c rad t0 t1 p0 p1 J I -> patch_flux e1 e2 e3 c rad t0 t1 p0 p1 (fun q => vscal k (J q)) (k * I).
Proof.
  intros [r [A B]]. exists (fun t => k * r t). split.
  - intros t Ht. eapply is_RInt_ext; [|exact (is_RInt_scal _ _ _ k _ (A t Ht))].
    intros p _. cbv zeta beta. unfold scal; cbn. unfold mult; cbn. unfold vdot, vscal; cbn. ring.
  - exact (is_RInt_scal _ _ _ k _ B).
Qed.

(** ** Inverse-square fields *)
Definition inv_square (p0 : vec3) (q : vec3) : vec3 := vscal (/ vnorm (vsub q p0) ^ 3) (vsub q p0).

Lemma sqrt_q2_pos R0 d u : 0 < R0 -> Rabs d <> R0 -> -1 <= u <= 1 -> 0 < sqrt (q2 R0 d u).
Proof. intros. apply sqrt_lt_R0. apply q2_pos; assumption. Qed.

(** - (R cos t - d)/q is an antiderivative of R^2 sin t (R - d cos t)/q^3 *)
Lemma mono_der R0 d t : 0 < R0 -> Rabs d <> R0 ->
  is_derive (fun t => - ((R0 * cos t - d) / sqrt (q2 R0 d (cos t)))) t
    ((R0 - d * cos t) / sqrt (q2 R0 d (cos t)) ^ 3 * (R0 ^ 2 * sin t)).
Proof.
  intros H N. pose proof (COS_bound t) as CB. pose proof (q2_pos R0 d (cos t) H N CB) as P.
  pose proof (sqrt_q2_pos R0 d (cos t) H N CB) as S. pose proof (sqrt_sqrt _ (Rlt_le _ _ P)) as SS.
  unfold q2 in *.
  eapply is_derive_eq.
  - der; try exact P. lra.
  - set (s := sqrt _) in *. eqR.
    transitivity (R0 * sin t * (s * s - d ^ 2 + R0 * d * cos t) / s ^ 3); [field; lra|]. rewrite SS. field. lra.
Qed.

Lemma sqrt_q2_cont R0 d t : 0 < R0 -> Rabs d <> R0 -> continuous (fun t => sqrt (q2 R0 d (cos t))) t.
Proof.
  intros H N. pose proof (COS_bound t) as CB. pose proof (q2_pos R0 d (cos t) H N CB) as P. unfold q2 in *.
  apply (ex_derive_continuous (fun t => sqrt (R0 ^ 2 + d ^ 2 - 2 * R0 * d * cos t))). eexists. der. exact P.
Qed.

Lemma ex_derive_cont (f : R -> R) x d : is_derive f x d -> continuous f x.
Proof. intro H. apply (ex_derive_continuous f). exists d. exact H. Qed.

Lemma mono_cont R0 d t : 0 < R0 -> Rabs d <> R0 ->
  continuous (fun t => (R0 - d * cos t) / sqrt (q2 R0 d (cos t)) ^ 3 * (R0 ^ 2 * sin t)) t.
Proof.
  intros H N. pose proof (COS_bound t) as CB. pose proof (q2_pos R0 d (cos t) H N CB) as P.
  pose proof (sqrt_q2_pos R0 d (cos t) H N CB) as S. unfold q2 in *.
  eapply ex_derive_cont. der; try exact P. apply pow_nonzero. lra.
Qed.

Definition mono_part (R0 d t : R) : R := - ((R0 * cos t - d) / sqrt (q2 R0 d (cos t))).

Lemma inv_square_zone e1 e2 e3 c rad d t0 t1 p0 p1 : frame e1 e2 e3 -> 0 < rad -> Rabs d <> rad -> t0 <= t1 ->
  patch_flux e1 e2 e3 c rad t0 t1 p0 p1 (inv_square (along c d e3)) ((p1 - p0) * (mono_part rad d t1 - mono_part rad d t0)).
Proof.
  intros F H N T.
  exists (fun t => (p1 - p0) * ((rad - d * cos t) / sqrt (q2 rad d (cos t)) ^ 3 * (rad ^ 2 * sin t))). split.
  - intros t _. replace ((p1 - p0) * _) with ((p1 - p0) * ((rad - d * cos t) / sqrt (q2 rad d (cos t)) ^ 3 * (rad ^ 2 * sin t))) by ring.
    eapply is_RInt_ext; [|apply (const_integral p0 p1)]. intros p _. cbv zeta beta. eqR.
    unfold inv_square. set (v := vsub _ _). set (n := direction e1 e2 e3 t p).
    assert (A : vdot v n = rad - d * cos t) by (unfold v, n; apply rvec_dot; exact F).
    assert (B : vnorm v = sqrt (q2 rad d (cos t))) by (unfold vnorm, v; rewrite rvec_norm2 by exact F; reflexivity).
    assert (X : vdot (vscal (/ vnorm v ^ 3) v) n = / vnorm v ^ 3 * vdot v n) by (destruct v, n; vunf; ring).
    rewrite X, A, B. unfold Rdiv. ring.
  - apply (is_RInt_scal (fun t => (rad - d * cos t) / sqrt (q2 rad d (cos t)) ^ 3 * (rad ^ 2 * sin t)) t0 t1 ((p1 - p0))).
    apply (FTC (mono_part rad d)); [exact T| |].
    + intros x _. apply mono_der; assumption.
    + intros x _. apply mono_cont; assumption.
Qed.

Lemma mono_part_0 R0 d : 0 < R0 -> mono_part R0 d 0 = - ((R0 - d) / Rabs (R0 - d)).
Proof.
  intro H. unfold mono_part, q2. rewrite cos_0. replace (R0 ^ 2 + d ^ 2 - 2 * R0 * d * 1) with (Rsqr (R0 - d)) by (unfold Rsqr; ring).
  rewrite sqrt_Rsqr_abs, Rmult_1_r. reflexivity.
Qed.
Lemma mono_part_PI R0 d : 0 < R0 -> mono_part R0 d PI = (R0 + d) / Rabs (R0 + d).
Proof.
  intro H. unfold mono_part, q2. rewrite cos_PI. replace (R0 ^ 2 + d ^ 2 - 2 * R0 * d * -1) with (Rsqr (R0 + d)) by (unfold Rsqr; ring).
  rewrite sqrt_Rsqr_abs. unfold Rdiv. ring.
Qed.
Lemma mono_part_PI2 R0 d : 0 < R0 -> mono_part R0 d (PI / 2) = d / sqrt (R0 ^ 2 + d ^ 2).
Proof.
  intro H. unfold mono_part, q2. rewrite cos_PI2. replace (R0 ^ 2 + d ^ 2 - 2 * R0 * d * 0) with (R0 ^ 2 + d ^ 2) by ring. unfold Rdiv. ring.
Qed.

Lemma div_abs_pos x : 0 < x -> x / Rabs x = 1.
Proof. intro H. rewrite Rabs_pos_eq by lra. field. lra. Qed.
Lemma div_abs_neg x : x < 0 -> x / Rabs x = - 1.
Proof. intro H. rewrite Rabs_left by lra. field. lra. Qed.

Lemma inv_square_inside e1 e2 e3 c rad d : frame e1 e2 e3 -> Rabs d < rad ->
  flux_out e1 e2 e3 c rad (inv_square (along c d e3)) (4 * PI).
Proof.
  intros F H. pose proof (Rabs_pos d) as P. assert (0 < rad) by lra. assert (N : Rabs d <> rad) by lra.
  pose proof (inv_square_zone e1 e2 e3 c rad d 0 PI 0 (2 * PI) F H0 N (Rlt_le _ _ PI_RGT_0)) as Z.
  rewrite mono_part_0, mono_part_PI in Z by assumption.
  apply Rabs_def2 in H. rewrite !div_abs_pos in Z by lra. replace (4 * PI) with ((2 * PI - 0) * (1 - - (1))) by ring. exact Z.
Qed.

Lemma inv_square_outside e1 e2 e3 c rad d : frame e1 e2 e3 -> 0 < rad -> rad < Rabs d ->
  flux_out e1 e2 e3 c rad (inv_square (along c d e3)) 0.
Proof.
  intros F H D. assert (N : Rabs d <> rad) by lra.
  pose proof (inv_square_zone e1 e2 e3 c rad d 0 PI 0 (2 * PI) F H N (Rlt_le _ _ PI_RGT_0)) as Z.
  rewrite mono_part_0, mono_part_PI in Z by assumption.
  unfold Rabs in D. destruct (Rcase_abs d) as [L|L].
  - rewrite div_abs_neg, div_abs_pos in Z by lra. replace 0 with ((2 * PI - 0) * (- (1) - - (1))) by ring. exact Z.
  - rewrite (div_abs_pos (rad + d)), (div_abs_neg (rad - d)) in Z by lra. replace 0 with ((2 * PI - 0) * (1 - - - (1))) by ring. exact Z.
Qed.

(** ** Dipole fields *)
Definition dipole_at (m p0 q : vec3) : vec3 :=
  let r := vsub q p0 in vsub (vscal (3 * vdot r m / vnorm r ^ 5) r) (vscal (/ vnorm r ^ 3) m).

Lemma ring_integral (a b g : R) : is_RInt (fun p => a * cos p + b * sin p + g) 0 (2 * PI) (2 * PI * g).
Proof.
  pose proof PI_RGT_0.
  replace (2 * PI * g) with ((a * sin (2 * PI) - b * cos (2 * PI) + g * (2 * PI)) - (a * sin 0 - b * cos 0 + g * 0))
    by (rewrite sin_2PI, cos_2PI, sin_0, cos_0; ring).
  apply (FTC (fun p => a * sin p - b * cos p + g * p)); [lra| |].
  - intros x _. eapply is_derive_eq; [der|eqR; ring].
  - intros x _. eapply ex_derive_cont. der.
Qed.

Definition dip_density (R0 d t : R) : R :=
  (3 * (R0 * cos t - d) * (R0 - d * cos t) / sqrt (q2 R0 d (cos t)) ^ 5 - cos t / sqrt (q2 R0 d (cos t)) ^ 3) * (R0 ^ 2 * sin t).
Definition dip_part (R0 d t : R) : R := R0 ^ 2 * sin t ^ 2 / sqrt (q2 R0 d (cos t)) ^ 3.

Lemma dip_der R0 d t : 0 < R0 -> Rabs d <> R0 -> is_derive (dip_part R0 d) t (dip_density R0 d t).
Proof.
  intros H N. pose proof (COS_bound t) as CB. pose proof (q2_pos R0 d (cos t) H N CB) as P.
  pose proof (sqrt_q2_pos R0 d (cos t) H N CB) as S. pose proof (sqrt_sqrt _ (Rlt_le _ _ P)) as SS.
  pose proof (sin2_cos2 t) as T. unfold Rsqr in T.
  unfold dip_part, dip_density, q2 in *.
  eapply is_derive_eq.
  - der; try exact P. apply pow_nonzero. lra.
  - set (s := sqrt _) in *. eqR. cbn [INR pred].
    transitivity (R0 ^ 2 * sin t * (2 * cos t * (s * s) - 3 * R0 * d * (sin t * sin t)) / s ^ 5); [field; lra|].
    transitivity (R0 ^ 2 * sin t * (3 * (R0 * cos t - d) * (R0 - d * cos t) - cos t * (s * s)) / s ^ 5); [|field; lra].
    rewrite SS. f_equal. f_equal. replace (sin t * sin t) with (1 - cos t * cos t) by lra. ring.
Qed.

Lemma dip_cont R0 d t : 0 < R0 -> Rabs d <> R0 -> continuous (dip_density R0 d) t.
Proof.
  intros H N. pose proof (COS_bound t) as CB. pose proof (q2_pos R0 d (cos t) H N CB) as P.
  pose proof (sqrt_q2_pos R0 d (cos t) H N CB) as S. unfold dip_density, q2 in *.
  eapply ex_derive_cont. der; try exact P; apply pow_nonzero; lra.
Qed.

Lemma dipole_zone e1 e2 e3 c rad d m t0 t1 : frame e1 e2 e3 -> 0 < rad -> Rabs d <> rad -> t0 <= t1 ->
  patch_flux e1 e2 e3 c rad t0 t1 0 (2 * PI) (dipole_at m (along c d e3)) (2 * PI * vdot e3 m * (dip_part rad d t1 - dip_part rad d t0)).
Proof.
  intros F H N T.
  exists (fun t => 2 * PI * vdot e3 m * dip_density rad d t). split.
  - intros t _.
    pose proof (COS_bound t) as CB. pose proof (sqrt_q2_pos rad d (cos t) H N CB) as S.
    set (s := sqrt (q2 rad d (cos t))) in *.
    set (w := 3 * rad * (rad - d * cos t) / s ^ 5 - / s ^ 3).
    pose proof (ring_integral (w * sin t * vdot e1 m * (rad ^ 2 * sin t)) (w * sin t * vdot e2 m * (rad ^ 2 * sin t)) (vdot e3 m * dip_density rad d t)) as X.
    replace (2 * PI * vdot e3 m * dip_density rad d t) with (2 * PI * (vdot e3 m * dip_density rad d t)) by ring.
    eapply is_RInt_ext; [|exact X]. intros p _. cbv zeta beta. eqR.
    unfold dipole_at. set (n := direction e1 e2 e3 t p). set (v := vsub (vadd c (vscal rad n)) (along c d e3)).
    assert (A : vdot v n = rad - d * cos t) by (unfold v, n; apply rvec_dot; exact F).
    assert (B : vnorm v = s) by (unfold vnorm, v, n; rewrite rvec_norm2 by exact F; reflexivity).
    assert (M : vdot v m = rad * vdot n m - d * vdot e3 m) by (unfold v; rewrite rvec_eq; destruct n, e3, m; vunf; ring).
    assert (Y : vdot (vsub (vscal (3 * vdot v m / vnorm v ^ 5) v) (vscal (/ vnorm v ^ 3) m)) n = 3 * vdot v m / vnorm v ^ 5 * vdot v n - / vnorm v ^ 3 * vdot n m)
      by (destruct v, n, m; vunf; ring).
    cbv zeta. rewrite Y, A, B, M. unfold n. rewrite dir_dot. unfold dip_density, w. fold s. field. lra.
  - apply (is_RInt_scal (dip_density rad d) t0 t1 (2 * PI * vdot e3 m)).
    apply (FTC (dip_part rad d)); [exact T| |].
    + intros x _. apply dip_der; assumption.
    + intros x _. apply dip_cont; assumption.
Qed.

Lemma dipole_flux e1 e2 e3 c rad d m : frame e1 e2 e3 -> 0 < rad -> Rabs d <> rad ->
  flux_out e1 e2 e3 c rad (dipole_at m (along c d e3)) 0.
Proof.
  intros F H N. pose proof (dipole_zone e1 e2 e3 c rad d m 0 PI F H N (Rlt_le _ _ PI_RGT_0)) as Z.
  unfold dip_part in Z. rewrite sin_0, sin_PI in Z.
  match type of Z with patch_flux _ _ _ _ _ _ _ _ _ _ ?x => assert (E : x = 0) by (unfold Rdiv; ring); rewrite E in Z end. exact Z.
Qed.

(** ** Radial and uniform-direction fields on a concentric sphere *)
Lemma constant_zone e1 e2 e3 c rad (J : vec3 -> vec3) k : frame e1 e2 e3 ->
  (forall t p, vdot (J (vadd c (vscal rad (direction e1 e2 e3 t p)))) (direction e1 e2 e3 t p) = k) ->
  flux_out e1 e2 e3 c rad J (4 * PI * rad ^ 2 * k).
Proof.
  intros F E. exists (fun t => 2 * PI * (k * (rad ^ 2 * sin t))). split.
  - intros t _. replace (2 * PI * _) with ((2 * PI - 0) * (k * (rad ^ 2 * sin t))) by ring.
    eapply is_RInt_ext; [|apply (const_integral 0 (2 * PI))]. intros p _. cbv zeta beta. rewrite E. reflexivity.
  - pose proof PI_RGT_0.
    replace (4 * PI * rad ^ 2 * k) with ((- (2 * PI * (k * rad ^ 2)) * cos PI) - (- (2 * PI * (k * rad ^ 2)) * cos 0)) by (rewrite cos_PI, cos_0; ring).
    apply (FTC (fun t => - (2 * PI * (k * rad ^ 2)) * cos t)); [lra| |].
    + intros x _. eapply is_derive_eq; [der|eqR; ring].
    + intros x _. eapply ex_derive_cont. der.
Qed.

Lemma linear_flux e1 e2 e3 c rad (J : vec3 -> vec3) k m : frame e1 e2 e3 ->
  (forall t p, vdot (J (vadd c (vscal rad (direction e1 e2 e3 t p)))) (direction e1 e2 e3 t p) = k * vdot (direction e1 e2 e3 t p) m) ->
  flux_out e1 e2 e3 c rad J 0.
Proof.
  intros F E. exists (fun t => 2 * PI * (k * cos t * vdot e3 m * (rad ^ 2 * sin t))). split.
  - intros t _. eapply is_RInt_ext; [|exact (ring_integral (k * sin t * vdot e1 m * (rad ^ 2 * sin t)) (k * sin t * vdot e2 m * (rad ^ 2 * sin t)) (k * cos t * vdot e3 m * (rad ^ 2 * sin t)))].
    intros p _. cbv zeta beta. rewrite E, dir_dot. eqR. ring.
  - pose proof PI_RGT_0. set (K := PI * k * vdot e3 m * rad ^ 2).
    replace 0 with ((K * (sin PI * sin PI)) - (K * (sin 0 * sin 0))) at 2 by (rewrite sin_PI, sin_0; ring).
    apply (FTC (fun t => K * (sin t * sin t))); [lra| |].
    + intros x _. eapply is_derive_eq; [der|eqR; unfold K; ring].
    + intros x _. eapply ex_derive_cont. der.
Qed.
