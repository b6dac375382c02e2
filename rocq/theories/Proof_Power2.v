(** Attenuation and power of the harmonic dipoles and of the plane wave. *)
From Coq Require Import Reals Lra Lia.
From Coquelicot Require Import Coquelicot.
From Verif Require Import Vec3 Calculus Deriv Integral Cplx Numpy Model_Static Model_FDEM Spec_Flux Spec_Power Proof_Flux Proof_FDEM Proof_FDEM3 Proof_Power.
Open Scope R_scope.

(** ** The wavenumber k = a - i b *)
Definition ka (s : fdem) : R := Re (fd_k s).
Definition kb (s : fdem) : R := - Im (fd_k s).
Definition physical (s : fdem) : Prop := 0 < fd_freq s /\ 0 < fd_sigma s /\ 0 < fd_mu s.

Lemma k_eq s : fd_k s = (ka s, - kb s).
Proof. unfold ka, kb. destruct (fd_k s). cbn. now rewrite Ropp_involutive. Qed.
Lemma k_pos s : physical s -> 0 < ka s /\ 0 < kb s.
Proof.
  intros (F & S & M). destruct (wavenumber_branch (fd_freq s) (fd_sigma s) (fd_mu s) (fd_eps s) (fd_qs s) F S M) as [A B].
  unfold ka, kb, fd_k. lra.
Qed.
Lemma k_ab s : 2 * ka s * kb s = fd_omega s * fd_mu s * fd_sigma s.
Proof.
  pose proof (wavenumber_sq (fd_freq s) (fd_sigma s) (fd_mu s) (fd_eps s) (fd_qs s)) as W. fold (fd_k s) (fd_omega s) in W. rewrite k_eq in W.
  apply (f_equal Im) in W. unfold sigma_hat in W. fold (fd_omega s) in W. destruct (is_True (fd_qs s)); cbn in W; nra.
Qed.
Lemma k_quasi s : physical s -> is_True (fd_qs s) = true -> ka s = kb s /\ fd_skin_depth s * kb s = 1.
Proof.
  intros P Q. destruct (k_pos s P) as [A B].
  pose proof (wavenumber_sq (fd_freq s) (fd_sigma s) (fd_mu s) (fd_eps s) (fd_qs s)) as W. fold (fd_k s) (fd_omega s) in W. rewrite k_eq in W.
  apply (f_equal Re) in W. unfold sigma_hat in W. rewrite Q in W. cbn in W. split; [nra|].
  assert (Q' : fd_qs s = PyTrue) by (destruct (fd_qs s); cbn in Q; congruence). destruct P as (F & S & M).
  pose proof (skin_depth_qs (fd_freq s) (fd_sigma s) (fd_mu s) (fd_eps s) PyTrue eq_refl F S M) as D. rewrite Cmod_cexp in D.
  apply exp_inv in D. unfold kb, fd_k, fd_skin_depth. rewrite Q'. cbn in D. cbn. nra.
Qed.

(** ** Amplitudes *)
Lemma amplitude_cvof c v : amplitude (cvof c v) = Cmod c * vnorm v.
Proof.
  unfold amplitude, vnorm. rewrite <- (sqrt_pow2 (Cmod c)) by apply Cmod_ge_0. rewrite <- sqrt_mult_alt by apply pow2_ge_0. f_equal.
  cbn [pow]. rewrite Rmult_1_r, Cmod_sqr. destruct c, v. unfold vnorm2. cbn. ring.
Qed.
Definition kX (kr : C) : C := (1 + Ci * kr)%C.
Definition kY (kr : C) : C := (1 + Ci * kr - kr * kr)%C.
Lemma amplitude_terms front kr u o : vnorm2 u = 1 ->
  amplitude (dipole_terms front kr u o) ^ 2 =
  Cmod front ^ 2 * (4 * Cmod (kX kr) ^ 2 * vdot u o ^ 2 + Cmod (kY kr) ^ 2 * (vnorm2 o - vdot u o ^ 2)).
Proof.
  intro U. rewrite amplitude_sq. cbn [pow]. rewrite !Rmult_1_r, !Cmod_sqr.
  assert (G : forall (f A B : C) t, vnorm2 (re_vec (cvscal f (cvadd (cvof (RtoC t * A)%C u) (cvof B o)))) + vnorm2 (im_vec (cvscal f (cvadd (cvof (RtoC t * A)%C u) (cvof B o)))) =
    (Re f * Re f + Im f * Im f) * ((Re A * Re A + Im A * Im A) * (t * t) * vnorm2 u + 2 * (Re A * Re B + Im A * Im B) * t * vdot u o + (Re B * Re B + Im B * Im B) * vnorm2 o)).
  { intros [] [] [] t. destruct u, o. unfold vnorm2, vdot. cbn. ring. }
  unfold dipole_terms. cbv zeta. rewrite G, U. unfold kX, kY. destruct kr. cbn. ring.
Qed.

Lemma away_vec c n r : vsub (away c n r) c = vscal r n.
Proof. unfold away. destruct c, n. apply vec3_eq; cbn; ring. Qed.
Lemma away_norm c n r : vnorm2 n = 1 -> 0 <= r -> vnorm (vsub (away c n r) c) = r.
Proof.
  intros N H. rewrite away_vec. unfold vnorm. replace (vnorm2 (vscal r n)) with (r * r) by (transitivity (r * r * vnorm2 n); [rewrite N; ring|destruct n; unfold vnorm2; cbn; ring]).
  apply sqrt_square, H.
Qed.
Lemma away_hat c n r : vnorm2 n = 1 -> 0 < r -> vdiv (vsub (away c n r) c) (vnorm (vsub (away c n r) c)) = n.
Proof. intros N H. rewrite away_norm by (assumption || lra). rewrite away_vec. destruct n. apply vec3_eq; cbn; field; lra. Qed.

(** values on the sphere *)
Definition ekr (s : fdem) (r : R) : C := cexp (- (Ci * (fd_k s * RtoC r)))%C.
Lemma ekr_mod s r : Cmod (ekr s r) = exp (- (kb s * r)).
Proof. unfold ekr. rewrite Cmod_cexp, k_eq. f_equal. cbn. ring. Qed.
Lemma mf_E_away s n r : vnorm2 n = 1 -> 0 < r ->
  mf_E s (away (mf_loc s) n r) = cvof (Ci * fd_omega (mf_med s) * fd_mu (mf_med s) * mf_moment s / RtoC (4 * PI * r ^ 2) * kX (fd_k (mf_med s) * r) * ekr (mf_med s) r)%C (vcross n (mf_orient s)).
Proof.
  intros N H. unfold mf_E. cbv zeta. rewrite away_hat, away_norm by (assumption || lra). unfold kX, ekr. do 2 f_equal. f_equal. ring.
Qed.
Lemma mf_H_away s n r : vnorm2 n = 1 -> 0 < r ->
  mf_H s (away (mf_loc s) n r) = dipole_terms (RtoC (mf_moment s / (4 * PI * r ^ 3)) * ekr (mf_med s) r)%C (fd_k (mf_med s) * r)%C n (mf_orient s).
Proof. intros N H. unfold mf_H. cbv zeta. rewrite away_hat, away_norm by (assumption || lra). reflexivity. Qed.
Lemma ed_E_away s n r : vnorm2 n = 1 -> 0 < r ->
  ed_E s (away (ed_loc s) n r) = dipole_terms (RtoC (ed_current s * ed_length s / (4 * PI * fd_sigma (ed_med s) * r ^ 3)) * ekr (ed_med s) r)%C (fd_k (ed_med s) * r)%C n (ed_orient s).
Proof. intros N H. unfold ed_E. cbv zeta. rewrite away_hat, away_norm by (assumption || lra). reflexivity. Qed.
Lemma ed_H_away s n r : vnorm2 n = 1 -> 0 < r ->
  ed_H s (away (ed_loc s) n r) = cvof (RtoC (ed_current s * ed_length s / (4 * PI * r ^ 2)) * kX (fd_k (ed_med s) * r) * ekr (ed_med s) r)%C (vcross (ed_orient s) n).
Proof.
  intros N H. unfold ed_H. cbv zeta. rewrite away_hat, away_norm by (assumption || lra). unfold kX, ekr. do 2 f_equal. f_equal. ring.
Qed.

Lemma X_mod s r : Cmod (kX (fd_k s * RtoC r)%C) ^ 2 = (1 + kb s * r) ^ 2 + (ka s * r) ^ 2.
Proof. rewrite k_eq. cbn [pow]. rewrite Rmult_1_r, Cmod_sqr. unfold kX. cbn. ring. Qed.
Lemma Y_mod s r : Cmod (kY (fd_k s * RtoC r)%C) ^ 2 = (1 + kb s * r + (kb s ^ 2 - ka s ^ 2) * r ^ 2) ^ 2 + (ka s * r + 2 * ka s * kb s * r ^ 2) ^ 2.
Proof. rewrite k_eq. cbn [pow]. rewrite !Rmult_1_r, Cmod_sqr. unfold kY. cbn. ring. Qed.

(** ** The amplitudes fall off at least like e^(-b r) *)
Lemma X_fall a b r1 r2 : 0 <= b -> 0 < r1 -> r1 <= r2 ->
  ((1 + b * r2) ^ 2 + (a * r2) ^ 2) / r2 ^ 2 <= ((1 + b * r1) ^ 2 + (a * r1) ^ 2) / r1 ^ 2.
Proof.
  intros B H1 H2.
  replace (((1 + b * r2) ^ 2 + (a * r2) ^ 2) / r2 ^ 2) with ((/ r2 + b) ^ 2 + a ^ 2) by (field; lra).
  replace (((1 + b * r1) ^ 2 + (a * r1) ^ 2) / r1 ^ 2) with ((/ r1 + b) ^ 2 + a ^ 2) by (field; lra).
  assert (I : / r2 <= / r1) by (apply Rinv_le_contravar; lra). assert (P : 0 < / r2) by (apply Rinv_0_lt_compat; lra). nra.
Qed.
Lemma Y_poly a b u v : 0 <= b -> 0 <= u <= v ->
  u ^ 2 * ((u ^ 2 + b * u + (b ^ 2 - a ^ 2)) ^ 2 + (a * u + 2 * a * b) ^ 2) <= v ^ 2 * ((v ^ 2 + b * v + (b ^ 2 - a ^ 2)) ^ 2 + (a * v + 2 * a * b) ^ 2).
Proof.
  intros B [U V].
  assert (E : forall x, x ^ 2 * ((x ^ 2 + b * x + (b ^ 2 - a ^ 2)) ^ 2 + (a * x + 2 * a * b) ^ 2) =
    (x ^ 6 - a ^ 2 * x ^ 4 + a ^ 4 * x ^ 2) + 2 * b * x ^ 5 + 3 * b ^ 2 * x ^ 4 + (2 * b ^ 3 + 2 * a ^ 2 * b) * x ^ 3 + (b ^ 4 + 2 * a ^ 2 * b ^ 2) * x ^ 2) by (intro; ring).
  rewrite !E. clear E.
  assert (M : forall n k, 0 <= k -> k * u ^ n <= k * v ^ n) by (intros; apply Rmult_le_compat_l; [assumption|apply pow_incr; lra]).
  pose proof (M 5%nat (2 * b) ltac:(lra)). pose proof (M 4%nat (3 * b ^ 2) ltac:(nra)).
  assert (B3 : 0 <= b ^ 3) by (apply pow_le, B). pose proof (pow2_ge_0 (a * b)). pose proof (pow2_ge_0 (b ^ 2)). pose proof (pow2_ge_0 a).
  pose proof (M 3%nat (2 * b ^ 3 + 2 * a ^ 2 * b) ltac:(nra)). pose proof (M 2%nat (b ^ 4 + 2 * a ^ 2 * b ^ 2) ltac:(nra)).
  assert (K : u ^ 6 - a ^ 2 * u ^ 4 + a ^ 4 * u ^ 2 <= v ^ 6 - a ^ 2 * v ^ 4 + a ^ 4 * v ^ 2).
  { pose proof (pow_incr u v 2 ltac:(lra)) as L. pose proof (pow2_ge_0 u) as P.
    replace (u ^ 6) with ((u ^ 2) ^ 3) by ring. replace (u ^ 4) with ((u ^ 2) ^ 2) by ring. replace (v ^ 6) with ((v ^ 2) ^ 3) by ring. replace (v ^ 4) with ((v ^ 2) ^ 2) by ring. replace (a ^ 4) with ((a ^ 2) ^ 2) by ring.
    set (x := u ^ 2) in *. set (y := v ^ 2) in *. set (A := a ^ 2) in *. clearbody x y A.
    assert (Z : 0 <= (y - x) * (x ^ 2 + x * y + y ^ 2 - A * (x + y) + A ^ 2)) by (apply Rmult_le_pos; [lra|]; pose proof (pow2_ge_0 (A - (x + y) / 2)); pose proof (pow2_ge_0 (x + y)); pose proof (pow2_ge_0 (x - y)); nra). nra. }
  lra.
Qed.
Lemma Y_fall a b r1 r2 : 0 <= b -> 0 < r1 -> r1 <= r2 ->
  ((1 + b * r2 + (b ^ 2 - a ^ 2) * r2 ^ 2) ^ 2 + (a * r2 + 2 * a * b * r2 ^ 2) ^ 2) / r2 ^ 6 <=
  ((1 + b * r1 + (b ^ 2 - a ^ 2) * r1 ^ 2) ^ 2 + (a * r1 + 2 * a * b * r1 ^ 2) ^ 2) / r1 ^ 6.
Proof.
  intros B H1 H2. pose proof (Y_poly a b (/ r2) (/ r1) B) as P.
  assert (I : / r2 <= / r1) by (apply Rinv_le_contravar; lra). assert (J : 0 < / r2) by (apply Rinv_0_lt_compat; lra). specialize (P ltac:(lra)).
  eapply Rle_trans; [|eapply Rle_trans; [exact P|]]; right; field; lra.
Qed.
Lemma sq_le x y : 0 <= y -> x ^ 2 <= y ^ 2 -> x <= y.
Proof. intros H L. destruct (Rle_lt_dec x y); [assumption|]. nra. Qed.
Lemma exp_split b r1 r2 : exp (- (b * r2)) = exp (- (b * (r2 - r1))) * exp (- (b * r1)).
Proof. rewrite <- exp_plus. f_equal. ring. Qed.
