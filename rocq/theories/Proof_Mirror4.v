(** The total field many skin depths away, the image and the loop (C139). *)
From Coq Require Import Reals Lra Psatz List.
From Coquelicot Require Import Coquelicot.
From Verif Require Import Vec3 Calculus Deriv Cplx CplxTaylor SpecFun Model_FDEM Spec_FDEM Spec_Fourier Spec_HalfSpace Proof_FDEM Proof_FDEM4 Proof_FDEM5 Proof_HalfSpace Proof_HalfSpace2 Proof_HalfSpace3 Spec_McNeill Proof_McNeill Proof_McNeill2 Spec_Mirror Proof_Mirror2 Proof_Mirror3.
Open Scope R_scope.

Lemma primary_radial iv kv mu_0 s c n r : c * c + n * n = 1 -> 0 < r ->
  (radial (mh_H iv kv mu_0 s false (at_distance (mh_loc s) c n r)) c n - radial (mh_H iv kv mu_0 s true (at_distance (mh_loc s) c n r)) c n)%C
  = RtoC (2 * (mh_moment s / (4 * PI * r ^ 3) * (vx (mh_orient s) * c + vy (mh_orient s) * n))).
Proof.
  intros U P. set (o := mh_orient s).
  assert (X : vx (at_distance (mh_loc s) c n r) - vx (mh_loc s) = r * c) by (cbn; ring).
  assert (Y : vy (at_distance (mh_loc s) c n r) - vy (mh_loc s) = r * n) by (cbn; ring).
  assert (O : off s (at_distance (mh_loc s) c n r)).
  { unfold off. destruct (Req_dec c 0) as [Zc|Nc]; [right|left]; intros Z.
    - rewrite Z in Y. assert (r * n = 0) by lra. assert (n <> 0) by nra. nra.
    - rewrite Z in X. assert (r * c = 0) by lra. nra. }
  assert (Rr : sqrt ((r * c) ^ 2 + (r * n) ^ 2) = r).
  { replace ((r * c) ^ 2 + (r * n) ^ 2) with (r ^ 2 * (c * c + n * n)) by ring. rewrite U, Rmult_1_r. apply sqrt_pow2. lra. }
  rewrite !(mh_form _ _ _ _ _ _ O), X, Y. fold o. set (V := mh_vec iv kv (mh_k mu_0 s) (vx o) (vy o) (vz o) (r * c) (r * n)).
  unfold radial. cbn [cvx cvy cvz cvscal cvsub cvof cvzero]. unfold mh_prim. cbv zeta. rewrite Rr. cbn [vx vy vz].
  assert (E0 : forall A B : R, A = B -> RtoC A = RtoC B) by (intros A B ->; reflexivity). pose proof PI_RGT_0.
  match goal with |- ?a = _ => transitivity (RtoC (mh_moment s / (4 * PI) * (c * (3 * (r * c) * (vx o * (r * c) + vy o * (r * n)) / r ^ 5 - vx o / r ^ 3) + n * (3 * (r * n) * (vx o * (r * c) + vy o * (r * n)) / r ^ 5 - vy o / r ^ 3))))
  end; [rewrite (RtoC_mult (_ / _)), RtoC_plus, (RtoC_mult c), (RtoC_mult n (_ - _)); ring|]. apply E0.
  transitivity (mh_moment s / (4 * PI * r ^ 3) * (3 * (c * c + n * n) * (vx o * c + vy o * n) - (vx o * c + vy o * n))); [field; lra|]. rewrite U. field. lra.
Qed.

(** polynomials against the exponential *)
Lemma exp_cube x : 0 <= x -> x ^ 3 / 6 <= exp x.
Proof.
  intros X. destruct (Req_dec x 0) as [->|N]; [rewrite exp_0; lra|]. pose proof (exp_ge_taylor x 3 X) as H. unfold sum_f_R0 in H. cbn in H. nra.
Qed.
Lemma poly_exp p x : 1 <= x -> 0 <= p -> p * x * exp (- x) <= 6 * p / x ^ 2.
Proof.
  intros X Pp. pose proof (exp_cube x ltac:(lra)) as E. pose proof (exp_pos x) as E0. rewrite exp_Ropp. assert (X3 : 0 < x ^ 3) by (apply pow_lt; lra). assert (X2 : 0 < x ^ 2) by (apply pow_lt; lra).
  assert (I : / exp x <= / (x ^ 3 / 6)) by (apply Rinv_le_contravar; lra).
  apply Rle_trans with (p * x * / (x ^ 3 / 6)); [apply Rmult_le_compat_l; [nra|exact I]|]. right. field. lra.
Qed.
Lemma inv_le1 x : 1 <= x -> 0 < / x <= 1. Proof. intros X. split; [apply Rinv_0_lt_compat; lra|]. rewrite <- Rinv_1. apply Rinv_le_contravar; lra. Qed.
Lemma inv2_le x : 1 <= x -> 0 < / x ^ 2 <= / x /\ / x ^ 2 = / x * / x.
Proof. intros X. pose proof (inv_le1 x X). assert (E : / x ^ 2 = / x * / x) by (field; lra). rewrite E. split; [nra|reflexivity]. Qed.
Lemma through_bounds x : 1 <= x -> through_transverse x <= 60 / x ^ 2 /\ through_vertical x <= 198 / x ^ 2 /\ through_radial x <= 252 / x ^ 2.
Proof.
  intros X. pose proof (inv_le1 x X) as I. destruct (inv2_le x X) as (I2 & E2). pose proof (exp_pos (- x)) as E. unfold through_transverse, through_vertical, through_radial.
  pose proof (poly_exp 10 x X ltac:(lra)). pose proof (poly_exp 33 x X ltac:(lra)). pose proof (poly_exp 42 x X ltac:(lra)). unfold Rdiv in *.
  repeat split; (eapply Rle_trans; [apply Rmult_le_compat_r; [lra|]|]); [| |instantiate (1 := 33 * x)| |instantiate (1 := 42 * x)|]; try instantiate (1 := 10 * x); lra.
Qed.

Lemma near (a b : C) e : Cmod (a - b)%C <= e -> Cmod a <= Cmod b + e.
Proof. intros H. replace a with (b + (a - b))%C by ring. eapply Rle_trans; [apply Cmod_triangle|]. lra. Qed.
Lemma mod_1i t : 0 <= t -> Cmod (RtoC t * (RtoC 1 - Ci))%C <= 17 / 12 * t.
Proof.
  intros T. rewrite Cmod_mult, Cmod_R, Rabs_pos_eq by exact T. assert (E : Cmod (RtoC 1 - Ci)%C * Cmod (RtoC 1 - Ci)%C = 2) by (rewrite Cmod_sqr; cbn; ring). pose proof (Cmod_ge_0 (RtoC 1 - Ci)%C).
  assert (Cmod (RtoC 1 - Ci)%C <= 17 / 12) by (apply Rnot_lt_le; intros L; nra). nra.
Qed.
Lemma mod_i t : 0 <= t -> Cmod (Ci * RtoC t)%C = t.
Proof. intros T. rewrite Cmod_mult, Cmod_i, Cmod_R, Rabs_pos_eq by exact T. ring. Qed.

Section Image.
  Variables (iv kv : nat -> C -> C) (mu_0 : R) (s : mhalf) (c n r : R).
  Hypotheses (B : bessel_products iv kv) (M : 0 < mu_0) (F : 0 < fd_freq (mh_med s)) (S : 0 < fd_sigma (mh_med s)) (U : c * c + n * n = 1) (P : 0 < r) (Q : is_True (fd_qs (mh_med s)) = true).
  Let x := skin_depths (fd_freq (mh_med s)) mu_0 (fd_sigma (mh_med s)) r.
  Let Ht : cvec := mh_H iv kv mu_0 s false (at_distance (mh_loc s) c n r).
  Let Hs : cvec := mh_H iv kv mu_0 s true (at_distance (mh_loc s) c n r).
  Let o := mh_orient s.
  Let m : R := mh_moment s / (4 * PI * r ^ 3).
  Let X0 : 0 < x := x_pos mu_0 s r M F S P.
  Lemma transverse_tot : Cmod (transverse Ht c n + RtoC (m * (vy o * c - vx o * n)) * (RtoC 2 + Ci * RtoC (3 / x ^ 2)))%C <= Rabs (m * (vy o * c - vx o * n)) * through_transverse x.
  Proof.
    pose proof (transverse_sec iv kv mu_0 s c n r M F S U P Q) as H. pose proof (proj2 (primary_of iv kv mu_0 s c n r U P)) as E. fold Ht Hs o m x in H, E.
    match goal with |- Cmod ?a <= _ => match type of H with Cmod ?b <= _ => replace a with b; [exact H|] end end.
    replace (transverse Ht c n) with (transverse Hs c n + (transverse Ht c n - transverse Hs c n))%C by ring. rewrite E, RtoC_opp. cnum. ring.
  Qed.
  Lemma radial_tot : Cmod (radial Ht c n - (RtoC (m * (vx o * c + vy o * n)) * (RtoC 4 + Ci * RtoC (12 / x ^ 2)) - RtoC (m * vz o) * (RtoC (3 / x) * (RtoC 1 - Ci))))%C
    <= Rabs (m * (vx o * c + vy o * n)) * through_radial x + Rabs (m * vz o) * (264 / x ^ 2).
  Proof.
    pose proof (radial_sec iv kv mu_0 s c n r B M F S U P Q) as H. pose proof (primary_radial iv kv mu_0 s c n r U P) as E. fold Ht Hs o m x in H, E.
    match goal with |- Cmod ?a <= _ => match type of H with Cmod ?b <= _ => replace a with b; [exact H|] end end.
    replace (radial Ht c n) with (radial Hs c n + (radial Ht c n - radial Hs c n))%C by ring. rewrite E, (RtoC_mult 2). cnum. ring.
  Qed.
  Lemma vertical_tot : Cmod (cvz Ht - (RtoC (m * vz o) * (Ci * RtoC (9 / x ^ 2)) + RtoC (m * (vx o * c + vy o * n)) * (RtoC (3 / x) * (RtoC 1 - Ci))))%C
    <= Rabs (m * vz o) * through_vertical x + Rabs (m * (vx o * c + vy o * n)) * (264 / x ^ 2).
  Proof.
    pose proof (vertical_sec iv kv mu_0 s c n r B M F S U P Q) as H. pose proof (proj1 (primary_of iv kv mu_0 s c n r U P)) as E. fold Ht Hs o m x in H, E.
    match goal with |- Cmod ?a <= _ => match type of H with Cmod ?b <= _ => replace a with b; [exact H|] end end.
    replace (cvz Ht) with (cvz Hs + (cvz Ht - cvz Hs))%C by ring. rewrite E, RtoC_opp. ring.
  Qed.
  (** the image *)
  Hypothesis X1 : 1 <= x.
  Lemma image_vertical : Cmod (cvz Ht) <= 269 / x * (Rabs (m * vz o) + Rabs (m * (vx o * c + vy o * n))).
  Proof.
    pose proof vertical_tot as H. apply near in H. destruct (through_bounds x X1) as (_ & T & _). pose proof (inv_le1 x X1) as I. destruct (inv2_le x X1) as (I2 & E2).
    eapply Rle_trans; [exact H|]. set (a := Rabs (m * vz o)) in *. set (b := Rabs (m * (vx o * c + vy o * n))) in *.
    assert (A0 : 0 <= a) by apply Rabs_pos. assert (B0 : 0 <= b) by apply Rabs_pos.
    assert (L : Cmod (RtoC (m * vz o) * (Ci * RtoC (9 / x ^ 2)) + RtoC (m * (vx o * c + vy o * n)) * (RtoC (3 / x) * (RtoC 1 - Ci)))%C <= a * (9 / x ^ 2) + b * (17 / 12 * (3 / x))).
    { apply sum_le; apply scaled_by; [rewrite mod_i; [lra|]|apply mod_1i]; unfold Rdiv; nra. }
    unfold Rdiv in *. nra.
  Qed.
  Lemma image_transverse : Cmod (transverse Hs c n - (transverse Ht c n - transverse Hs c n))%C <= 63 / x ^ 2 * Rabs (m * (vy o * c - vx o * n)).
  Proof.
    pose proof (transverse_sec iv kv mu_0 s c n r M F S U P Q) as H. pose proof (proj2 (primary_of iv kv mu_0 s c n r U P)) as E. fold Ht Hs o m x in H, E.
    rewrite E. destruct (through_bounds x X1) as (T & _). destruct (inv2_le x X1) as (I2 & E2). set (a := Rabs (m * (vy o * c - vx o * n))) in *. assert (A0 : 0 <= a) by apply Rabs_pos.
    match goal with |- Cmod ?q <= _ => replace q with ((transverse Hs c n + RtoC (m * (vy o * c - vx o * n)) * (RtoC 1 + Ci * RtoC (3 / x ^ 2))) + RtoC (- (m * (vy o * c - vx o * n))) * (Ci * RtoC (3 / x ^ 2)))%C by (rewrite RtoC_opp; ring) end.
    replace (63 / x ^ 2 * a) with (a * (60 / x ^ 2) + a * (3 / x ^ 2)) by (field; lra). apply sum_le.
    - eapply Rle_trans; [exact H|]. now apply Rmult_le_compat_l.
    - unfold a. rewrite <- Rabs_Ropp. apply scaled_by. rewrite mod_i; [lra|]. unfold Rdiv. nra.
  Qed.
  Lemma image_radial : Cmod (radial Hs c n - (radial Ht c n - radial Hs c n))%C <= 269 / x * (Rabs (m * vz o) + Rabs (m * (vx o * c + vy o * n))).
  Proof.
    pose proof (radial_sec iv kv mu_0 s c n r B M F S U P Q) as H. pose proof (primary_radial iv kv mu_0 s c n r U P) as E. fold Ht Hs o m x in H, E.
    rewrite E. destruct (through_bounds x X1) as (_ & _ & T). pose proof (inv_le1 x X1) as I. destruct (inv2_le x X1) as (I2 & E2).
    set (a := Rabs (m * vz o)) in *. set (b := Rabs (m * (vx o * c + vy o * n))) in *.
    assert (A0 : 0 <= a) by apply Rabs_pos. assert (B0 : 0 <= b) by apply Rabs_pos.
    match goal with |- Cmod ?q <= _ => replace q with ((radial Hs c n - (RtoC (m * (vx o * c + vy o * n)) * (RtoC 2 + Ci * RtoC (12 / x ^ 2)) - RtoC (m * vz o) * (RtoC (3 / x) * (RtoC 1 - Ci))))
      + (RtoC (m * (vx o * c + vy o * n)) * (Ci * RtoC (12 / x ^ 2)) + RtoC (- (m * vz o)) * (RtoC (3 / x) * (RtoC 1 - Ci))))%C by (rewrite RtoC_opp, (RtoC_mult 2); ring) end.
    apply Rle_trans with ((b * through_radial x + a * (264 / x ^ 2)) + (b * (12 / x ^ 2) + a * (17 / 12 * (3 / x)))).
    - apply sum_le; [exact H|]. apply sum_le; [apply scaled_by; rewrite mod_i; [lra|]|unfold a; rewrite <- Rabs_Ropp; apply scaled_by, mod_1i]; unfold Rdiv; nra.
    - unfold Rdiv in *. nra.
  Qed.
End Image.

Lemma loop_far f sg mu a I n : 0 < f -> 0 < sg -> 0 < mu -> 0 < a -> let x := skin_depths f mu sg a in
  Cmod (loop_hz f sg mu a I n false + RtoC (n * I / a) * (Ci * RtoC (3 / 2 / x ^ 2)))%C <= / 2 * Rabs (n * I / a) * through_transverse x.
Proof.
  intros F Sg M A x. pose proof PI_RGT_0 as Pi. destruct (loop_u f sg mu a I n F Sg M A) as (u & D & U0 & UU & E).
  assert (W : 0 < PI * f * mu * sg) by pos3. assert (X : 0 < x) by (unfold x, skin_depths; apply Rmult_lt_0_compat; [exact A|now apply sqrt_lt_R0]).
  assert (X2 : x ^ 2 = PI * f * mu * sg * a ^ 2) by (unfold x, skin_depths; rewrite Rpow_mult_distr, pow2_sqrt by lra; ring).
  assert (Ux : u = (x, x)). { apply root_of_i; [exact X|exact D|]. rewrite UU, X2. generalize (a ^ 2). intros a2. apply C_eq; cbn; ring. }
  assert (T : loop_hz f sg mu a I n false = (RtoC (n * I / a) * ((3 - (3 + 3 * u + u * u) * cexp (- u)) / (u * u)))%C).
  { transitivity (loop_hz f sg mu a I n true + RtoC (n * I / a) * RtoC (1 / 2))%C.
    - unfold loop_hz. cbv zeta. match goal with |- (RtoC n * ?h)%C = _ => set (h0 := h) end. replace (I / 2 / a) with (I / a * (1 / 2)) by (field; lra). unfold Rdiv. rewrite !RtoC_mult. ring.
    - rewrite E. ring. }
  rewrite T. pose proof (profile_tail 3 3 1 0 x u X) as H. do 4 (specialize (H ltac:(lra))). specialize (H Ux).
  replace (RtoC 3 + RtoC 3 * u + RtoC 1 * (u * u) + RtoC 0 * (u * u * u))%C with (3 + 3 * u + u * u)%C in H by ring.
  rewrite <- Cmult_plus_distr_l. replace (/ 2 * Rabs (n * I / a) * through_transverse x) with (Rabs (n * I / a) * (/ 2 * through_transverse x)) by ring. apply scaled_by. eapply Rle_trans; [exact H|].
  unfold through_transverse. apply Rmult_le_compat_l; [lra|]. pose proof (exp_pos (- x)). apply Rmult_le_compat_r; [lra|]. pose proof (Rinv_0_lt_compat x X). unfold Rdiv. lra.
Qed.
