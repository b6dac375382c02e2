(** The dipole on a half-space and the loop many skin depths away (C139). *)
From Coq Require Import Reals Lra Psatz List.
From Coquelicot Require Import Coquelicot.
From Verif Require Import Vec3 Calculus Deriv Cplx CplxTaylor SpecFun Model_FDEM Spec_FDEM Spec_Fourier Spec_HalfSpace Proof_FDEM Proof_FDEM4 Proof_FDEM5 Proof_HalfSpace Proof_HalfSpace2 Proof_HalfSpace3 Spec_McNeill Proof_McNeill Proof_McNeill2 Spec_Mirror Proof_Mirror2.
Open Scope R_scope.

Lemma exp_tail (A B Cc D x : R) (u : C) : 0 < x -> 0 <= A -> 0 <= B -> 0 <= Cc -> 0 <= D -> u = (x, x) ->
  Cmod ((RtoC A + RtoC B * u + RtoC Cc * (u * u) + RtoC D * (u * u * u)) * cexp (- u) / (u * u))%C <= / 2 * ((A / x ^ 2 + 17 / 12 * B / x + 2 * Cc + 17 / 6 * D * x) * exp (- x)).
Proof.
  intros X PA PB PC PD ->. set (u := (x, x) : C).
  assert (U2 : Cmod u * Cmod u = 2 * x ^ 2) by (rewrite Cmod_sqr; cbn; ring). pose proof (Cmod_ge_0 u) as U0.
  assert (U1 : Cmod u <= 17 / 12 * x) by (apply Rnot_lt_le; intros L; nra).
  assert (Nu : u <> RtoC 0) by (intros E; apply (f_equal fst) in E; cbn in E; lra).
  unfold Cdiv. rewrite !Cmod_mult, Cmod_cexp, Cmod_inv by (apply Cmult_neq_0; exact Nu). rewrite Cmod_mult, U2. replace (Re (- u)%C) with (- x) by reflexivity.
  assert (T : Cmod (RtoC A + RtoC B * u + RtoC Cc * (u * u) + RtoC D * (u * u * u))%C <= A + B * (17 / 12 * x) + Cc * (2 * x ^ 2) + D * (2 * x ^ 2 * (17 / 12 * x))).
  { eapply Rle_trans; [apply Cmod_triangle|]. eapply Rle_trans; [apply Rplus_le_compat_r, Cmod_triangle|]. eapply Rle_trans; [apply Rplus_le_compat_r, Rplus_le_compat_r, Cmod_triangle|].
    rewrite !Cmod_mult, !Cmod_R, !Rabs_pos_eq by assumption. rewrite !U2. repeat apply Rplus_le_compat; try lra; apply Rmult_le_compat_l; try assumption. apply Rmult_le_compat_l; [nra|exact U1]. }
  pose proof (exp_pos (- x)) as E. assert (P2 : 0 < 2 * x ^ 2) by nra.
  replace (/ 2 * ((A / x ^ 2 + 17 / 12 * B / x + 2 * Cc + 17 / 6 * D * x) * exp (- x))) with ((A + B * (17 / 12 * x) + Cc * (2 * x ^ 2) + D * (2 * x ^ 2 * (17 / 12 * x))) * exp (- x) * / (2 * x ^ 2)) by (field; lra).
  apply Rmult_le_compat_r; [left; now apply Rinv_0_lt_compat|]. apply Rmult_le_compat_r; lra.
Qed.
Lemma usq_xx x : ((x, x) * (x, x))%C = (Ci * RtoC (2 * x ^ 2))%C. Proof. apply C_eq; cbn; ring. Qed.
Lemma over_usq A x : 0 < x -> (RtoC A / ((x, x) * (x, x)))%C = (- (Ci * RtoC (A / 2 / x ^ 2)))%C.
Proof.
  intros X. assert (P : 0 < x ^ 2) by (apply pow_lt; lra). rewrite usq_xx. assert (N : RtoC (2 * x ^ 2) <> RtoC 0) by (apply RtoC_neq; lra).
  replace (A / 2 / x ^ 2) with (A / (2 * x ^ 2)) by (field; lra). rewrite RtoC_div by lra. assert (NC : (Ci : C) <> RtoC 0) by (intros E; apply (f_equal snd) in E; cbn in E; lra).
  assert (II : (Ci * Ci)%C = (- RtoC 1)%C) by (apply C_eq; cbn; ring).
  transitivity (RtoC A * (- (Ci * Ci)) / (Ci * RtoC (2 * x ^ 2)))%C; [rewrite II; field; split; assumption|]. field. split; assumption.
Qed.
(** a profile of the code less its algebraic part *)
Lemma profile_tail (A B Cc D x : R) (u : C) : 0 < x -> 0 <= A -> 0 <= B -> 0 <= Cc -> 0 <= D -> u = (x, x) ->
  Cmod ((RtoC A - (RtoC A + RtoC B * u + RtoC Cc * (u * u) + RtoC D * (u * u * u)) * cexp (- u)) / (u * u) + Ci * RtoC (A / 2 / x ^ 2))%C
  <= / 2 * ((A / x ^ 2 + 17 / 12 * B / x + 2 * Cc + 17 / 6 * D * x) * exp (- x)).
Proof.
  intros X PA PB PC PD E. pose proof (exp_tail A B Cc D x u X PA PB PC PD E) as H. rewrite <- Cmod_opp in H. pose proof (over_usq A x X) as O. rewrite <- E in O.
  assert (Nu : u <> RtoC 0) by (rewrite E; intros Z; apply (f_equal fst) in Z; cbn in Z; lra).
  match goal with |- Cmod ?a <= _ => replace a with (- ((RtoC A + RtoC B * u + RtoC Cc * (u * u) + RtoC D * (u * u * u)) * cexp (- u) / (u * u)))%C; [exact H|] end.
  replace (Ci * RtoC (A / 2 / x ^ 2))%C with (- (RtoC A / (u * u)))%C by (rewrite O; ring). field. exact Nu.
Qed.
Lemma root_of_i (u : C) x : 0 < x -> 0 <= Re u -> (u * u)%C = (Ci * RtoC (2 * x ^ 2))%C -> u = (x, x).
Proof.
  intros X R0 E. destruct u as [p q]. assert (E1 := f_equal fst E). assert (E2 := f_equal snd E). cbn in *.
  assert (p * p = q * q) by lra. assert (p * q = x * x) by lra. assert (0 < p) by (destruct (Req_dec p 0); [subst p; nra|lra]). assert (0 < q) by nra. assert (p = q) by nra. assert (p = x) by nra. f_equal; lra.
Qed.

Section Far.
  Variables (iv kv : nat -> C -> C) (mu_0 : R) (s : mhalf) (c n r : R).
  Hypotheses (B : bessel_products iv kv) (M : 0 < mu_0) (F : 0 < fd_freq (mh_med s)) (S : 0 < fd_sigma (mh_med s)) (U : c * c + n * n = 1) (P : 0 < r) (Q : is_True (fd_qs (mh_med s)) = true).
  Let k : C := mh_k mu_0 s.
  Let kk : C := (Ci * k)%C.
  Let u : C := (kk * RtoC r)%C.
  Let x := skin_depths (fd_freq (mh_med s)) mu_0 (fd_sigma (mh_med s)) r.
  Let K : 0 < Re kk := mh_k_im mu_0 s M F S.
  Lemma x_pos : 0 < x.
  Proof. unfold x, skin_depths. pose proof PI_RGT_0. apply Rmult_lt_0_compat; [exact P|]. apply sqrt_lt_R0. pos3. Qed.
  Lemma x_sq : x ^ 2 = PI * fd_freq (mh_med s) * mu_0 * fd_sigma (mh_med s) * r ^ 2.
  Proof. unfold x, skin_depths. rewrite Rpow_mult_distr, pow2_sqrt; [ring|]. pose proof PI_RGT_0. left. pos3. Qed.
  Lemma u_xx : u = (x, x).
  Proof.
    apply root_of_i; [exact x_pos| |].
    - exact (u_re mu_0 s r M F S P).
    - assert (E := u_sq mu_0 s r). fold k kk u in E. rewrite E, (qs_hat s Q), x_sq. generalize (r ^ 2). intros r2.
      apply C_eq; cbn; field.
  Qed.
  Let Ht : cvec := mh_H iv kv mu_0 s false (at_distance (mh_loc s) c n r).
  Let Hs : cvec := mh_H iv kv mu_0 s true (at_distance (mh_loc s) c n r).
  Let o := mh_orient s.
  Let m : R := mh_moment s / (4 * PI * r ^ 3).
  Let g : C := (k * k / RtoC r * (iv 1%nat (kk * RtoC (r / 2)) * kv 1%nat (kk * RtoC (r / 2)) - iv 2%nat (kk * RtoC (r / 2)) * kv 2%nat (kk * RtoC (r / 2))))%C.
  Let NR : RtoC r <> RtoC 0 := rn r P.
  Lemma half : (kk * RtoC (r / 2))%C = (x / 2, x / 2).
  Proof.
    pose proof u_xx as E. unfold u in E. revert E. generalize kk. intros [p q] E. assert (E1 := f_equal fst E). assert (E2 := f_equal snd E). cbn in E1, E2.
    apply C_eq; cbn; lra.
  Qed.
  Lemma g_far : Cmod (RtoC r * RtoC r * RtoC r * g - - (RtoC (3 / x) * (RtoC 1 - Ci)))%C <= 264 / x ^ 2.
  Proof.
    pose proof x_pos as X. set (z := (kk * RtoC (r / 2))%C). assert (Ez : z = (x / 2, x / 2)) by exact half.
    assert (Zr : 0 < Re z) by (rewrite Ez; cbn; lra). assert (Z2 : Re (z * z)%C = 0) by (rewrite Ez; cbn; ring).
    pose proof (products_large iv kv z B Zr Z2) as L. set (D := (iv 1%nat z * kv 1%nat z - iv 2%nat z * kv 2%nat z)%C) in *.
    assert (Zn : z <> RtoC 0) by (intros E; rewrite E in Zr; cbn in Zr; lra).
    assert (K2 : (k * k * (RtoC r * RtoC r))%C = (- ((1 + 1) * (1 + 1) * (z * z)))%C).
    { transitivity (- (kk * kk) * (RtoC r * RtoC r))%C; [unfold kk; rewrite (kk2 k); ring|]. unfold z. replace (RtoC r) with ((1 + 1) * RtoC (r / 2))%C by (rewrite <- RtoC_plus, <- RtoC_mult; f_equal; field). ring. }
    assert (E : (RtoC r * RtoC r * RtoC r * g - - (RtoC (3 / x) * (RtoC 1 - Ci)))%C = (- ((1 + 1) * (1 + 1) * (z * z)) * (D - RtoC (3 / 4) * / (z * z * z)))%C).
    { unfold g. fold z. fold D. transitivity (k * k * (RtoC r * RtoC r) * D + RtoC (3 / x) * (RtoC 1 - Ci))%C; [field; exact NR|]. rewrite K2.
      assert (H : (RtoC (3 / x) * (RtoC 1 - Ci))%C = ((1 + 1) * (1 + 1) * (RtoC (3 / 4) * / z))%C).
      { assert (Hz : (RtoC (3 / x) * (RtoC 1 - Ci) * z)%C = ((1 + 1) * (1 + 1) * RtoC (3 / 4))%C) by (rewrite Ez; apply C_eq; cbn; field; lra).
        transitivity (RtoC (3 / x) * (RtoC 1 - Ci) * z * / z)%C; [field; exact Zn|]. rewrite Hz. ring. }
      rewrite H. field. exact Zn. }
    rewrite E. assert (C2z : Cmod z ^ 2 = x ^ 2 / 2) by (replace (Cmod z ^ 2) with (Cmod z * Cmod z) by ring; rewrite Cmod_sqr, Ez; cbn; field).
    rewrite !Cmod_mult, Cmod_opp, !Cmod_mult. replace (1 + 1)%C with (RtoC 2) by (rewrite <- RtoC_plus; f_equal; ring). rewrite Cmod_R, (Rabs_pos_eq 2) by lra.
    replace (Cmod z ^ 4) with (x ^ 2 / 2 * (x ^ 2 / 2)) in L by (rewrite <- C2z; ring). replace (2 * 2 * (Cmod z * Cmod z)) with (2 * x ^ 2) by (replace (Cmod z * Cmod z) with (Cmod z ^ 2) by ring; rewrite C2z; field).
    replace (264 / x ^ 2) with (2 * x ^ 2 * (33 / (x ^ 2 / 2 * (x ^ 2 / 2)))) by (field; lra). apply Rmult_le_compat_l; [nra|exact L].
  Qed.
  Let p1 := ((3 - (3 + 3 * u + u * u) * cexp (- u)) / (u * u))%C.
  Let p2 := ((12 - (12 + 12 * u + 5 * (u * u) + u * u * u) * cexp (- u)) / (u * u))%C.
  Let p3 := ((9 - (9 + 9 * u + 4 * (u * u) + u * u * u) * cexp (- u)) / (u * u))%C.
  Lemma p1_far : Cmod (RtoC 2 * (p1 + Ci * RtoC (3 / 2 / x ^ 2)))%C <= through_transverse x.
  Proof.
    pose proof x_pos as X. pose proof (profile_tail 3 3 1 0 x u X) as H. do 4 (specialize (H ltac:(lra))). specialize (H u_xx). rewrite Cmod_mult, Cmod_R, (Rabs_pos_eq 2) by lra.
    replace (RtoC 3 + RtoC 3 * u + RtoC 1 * (u * u) + RtoC 0 * (u * u * u))%C with (3 + 3 * u + u * u)%C in H by ring. fold p1 in H. unfold through_transverse. pose proof (exp_pos (- x)). pose proof (Rinv_0_lt_compat x X).
    eapply Rle_trans; [apply Rmult_le_compat_l; [lra|exact H]|]. rewrite <- Rmult_assoc, Rinv_r, Rmult_1_l by lra. apply Rmult_le_compat_r; [lra|]. unfold Rdiv. lra.
  Qed.
  Lemma p2_far : Cmod (RtoC 2 * (p2 + Ci * RtoC (12 / 2 / x ^ 2)))%C <= through_radial x.
  Proof.
    pose proof x_pos as X. pose proof (profile_tail 12 12 5 1 x u X) as H. do 4 (specialize (H ltac:(lra))). specialize (H u_xx). rewrite Cmod_mult, Cmod_R, (Rabs_pos_eq 2) by lra.
    replace (RtoC 12 + RtoC 12 * u + RtoC 5 * (u * u) + RtoC 1 * (u * u * u))%C with (12 + 12 * u + 5 * (u * u) + u * u * u)%C in H by ring. fold p2 in H. unfold through_radial. pose proof (exp_pos (- x)). pose proof (Rinv_0_lt_compat x X).
    eapply Rle_trans; [apply Rmult_le_compat_l; [lra|exact H]|]. rewrite <- Rmult_assoc, Rinv_r, Rmult_1_l by lra. apply Rmult_le_compat_r; [lra|]. unfold Rdiv. lra.
  Qed.
  Lemma p3_far : Cmod (RtoC 2 * (p3 + Ci * RtoC (9 / 2 / x ^ 2)))%C <= through_vertical x.
  Proof.
    pose proof x_pos as X. pose proof (profile_tail 9 9 4 1 x u X) as H. do 4 (specialize (H ltac:(lra))). specialize (H u_xx). rewrite Cmod_mult, Cmod_R, (Rabs_pos_eq 2) by lra.
    replace (RtoC 9 + RtoC 9 * u + RtoC 4 * (u * u) + RtoC 1 * (u * u * u))%C with (9 + 9 * u + 4 * (u * u) + u * u * u)%C in H by ring. fold p3 in H. unfold through_vertical. pose proof (exp_pos (- x)). pose proof (Rinv_0_lt_compat x X).
    eapply Rle_trans; [apply Rmult_le_compat_l; [lra|exact H]|]. rewrite <- Rmult_assoc, Rinv_r, Rmult_1_l by lra. apply Rmult_le_compat_r; [lra|]. unfold Rdiv. lra.
  Qed.
  Lemma scaled_by (a : R) (t : C) e : Cmod t <= e -> Cmod (RtoC a * t)%C <= Rabs a * e.
  Proof. intros H. rewrite Cmod_mult, Cmod_R. apply Rmult_le_compat_l; [apply Rabs_pos|exact H]. Qed.
  Lemma sum_le (t t' : C) e e' : Cmod t <= e -> Cmod t' <= e' -> Cmod (t + t')%C <= e + e'.
  Proof. intros H H'. eapply Rle_trans; [apply Cmod_triangle|]. lra. Qed.
  Let KN : kk <> RtoC 0 := kk_nz mu_0 s M F S.
  Lemma un : u <> RtoC 0. Proof. exact (u_nz mu_0 s r M F S P). Qed.
  Lemma c_half A : (RtoC 2 * RtoC (A / 2 / x ^ 2))%C = RtoC (A / x ^ 2).
  Proof. pose proof x_pos. rewrite <- RtoC_mult. f_equal. field. lra. Qed.
  (** the secondary field *)
  Lemma transverse_sec : Cmod (transverse Hs c n + RtoC (m * (vy o * c - vx o * n)) * (RtoC 1 + Ci * RtoC (3 / x ^ 2)))%C <= Rabs (m * (vy o * c - vx o * n)) * through_transverse x.
  Proof.
    destruct (parts_of iv kv mu_0 s c n M F S U r P) as (_ & T & _). fold k kk o in T. unfold Hs. rewrite T, (mom_eq s r P). fold m. destruct (tp_u kk r KN P) as (E & _). fold u in E. fold p1 in E. rewrite E.
    match goal with |- Cmod ?t <= _ => replace t with (RtoC (m * (vy o * c - vx o * n)) * (RtoC 2 * (p1 + Ci * RtoC (3 / 2 / x ^ 2))))%C end; [apply scaled_by, p1_far|].
    rewrite <- (c_half 3), (RtoC_mult m). clearbody p1. pose proof NR. field. exact NR.
  Qed.
  Lemma radial_sec : Cmod (radial Hs c n - (RtoC (m * (vx o * c + vy o * n)) * (RtoC 2 + Ci * RtoC (12 / x ^ 2)) - RtoC (m * vz o) * (RtoC (3 / x) * (RtoC 1 - Ci))))%C
    <= Rabs (m * (vx o * c + vy o * n)) * through_radial x + Rabs (m * vz o) * (264 / x ^ 2).
  Proof.
    destruct (parts_of iv kv mu_0 s c n M F S U r P) as (_ & _ & T). cbv zeta in T. fold k kk o in T. fold g in T. unfold Hs. rewrite T, (mom_eq s r P). fold m. destruct (tp_u kk r KN P) as (_ & E). fold u in E. fold p2 in E. rewrite E.
    match goal with |- Cmod ?t <= _ => replace t with (RtoC (- (m * (vx o * c + vy o * n))) * (RtoC 2 * (p2 + Ci * RtoC (12 / 2 / x ^ 2))) + RtoC (m * vz o) * (RtoC r * RtoC r * RtoC r * g - - (RtoC (3 / x) * (RtoC 1 - Ci))))%C end.
    - rewrite <- (Rabs_Ropp (m * (_ + _))). apply sum_le; apply scaled_by; [exact p2_far|exact g_far].
    - rewrite <- (c_half 12), RtoC_opp, !(RtoC_mult m). clearbody p2 g. generalize (RtoC (3 / x)) (RtoC (12 / 2 / x ^ 2)). intros a b. pose proof NR. cnum. field. exact NR.
  Qed.
  Lemma vertical_sec : Cmod (cvz Hs - (RtoC (m * vz o) * (RtoC 1 + Ci * RtoC (9 / x ^ 2)) + RtoC (m * (vx o * c + vy o * n)) * (RtoC (3 / x) * (RtoC 1 - Ci))))%C
    <= Rabs (m * vz o) * through_vertical x + Rabs (m * (vx o * c + vy o * n)) * (264 / x ^ 2).
  Proof.
    destruct (parts_of iv kv mu_0 s c n M F S U r P) as (T & _ & _). cbv zeta in T. fold k kk o in T. fold g in T. unfold Hs. rewrite T, (mom_eq s r P). fold m. destruct (tp_u kk r KN P) as (E1 & E2). fold u in E1, E2. fold p1 in E1. fold p2 in E2. rewrite E1, E2.
    assert (PP : p2 = (p3 + p1)%C) by (apply p_split, un). rewrite PP.
    match goal with |- Cmod ?t <= _ => replace t with (RtoC (- (m * vz o)) * (RtoC 2 * (p3 + Ci * RtoC (9 / 2 / x ^ 2))) + RtoC (- (m * (vx o * c + vy o * n))) * (RtoC r * RtoC r * RtoC r * g - - (RtoC (3 / x) * (RtoC 1 - Ci))))%C end.
    - rewrite <- (Rabs_Ropp (m * vz o)), <- (Rabs_Ropp (m * (_ + _))). apply sum_le; apply scaled_by; [exact p3_far|exact g_far].
    - rewrite <- (c_half 9), !RtoC_opp, !(RtoC_mult m). clearbody p1 p3 g. generalize (RtoC (3 / x)) (RtoC (9 / 2 / x ^ 2)). intros a b. pose proof NR. cnum. field. exact NR.
  Qed.
End Far.
