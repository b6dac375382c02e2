(** The dipole on a half-space and the loop at low induction numbers (C129). *)
From Coq Require Import Reals Lra Psatz List.
From Coquelicot Require Import Coquelicot.
From Verif Require Import Vec3 Calculus Deriv Cplx CplxTaylor Model_FDEM Spec_FDEM Spec_HalfSpace Proof_FDEM Proof_FDEM4 Proof_FDEM5 Proof_HalfSpace Proof_HalfSpace2 Proof_HalfSpace3 Spec_McNeill Proof_McNeill.
Open Scope R_scope.

Lemma tp_u k r : k <> RtoC 0 -> 0 < r -> let u := (k * RtoC r)%C in
  tp k r = (/ (RtoC r * RtoC r) * (1 - 2 * ((3 - (3 + 3 * u + u * u) * cexp (- u)) / (u * u))))%C /\
  dtp k r = (/ (RtoC r * RtoC r * RtoC r) * (2 * ((12 - (12 + 12 * u + 5 * (u * u) + u * u * u) * cexp (- u)) / (u * u)) - 2))%C.
Proof.
  intros K P u. pose proof (rn r P) as N. unfold tp, dtp, u. rewrite C6. replace (- (RtoC r * k))%C with (- (k * RtoC r))%C by ring.
  generalize (cexp (- (k * RtoC r))%C). generalize dependent (RtoC r). intros x N e. cnum. split; field; split; assumption.
Qed.

Lemma scaled z (q : C) B : Cmod z <= B -> Cmod (q * z)%C <= Cmod q * B.
Proof. intros H. rewrite Cmod_mult. apply Rmult_le_compat_l; [apply Cmod_ge_0|exact H]. Qed.

Lemma p_split v e : v <> RtoC 0 ->
  ((12 - (12 + 12 * v + 5 * (v * v) + v * v * v) * e) / (v * v) = (9 - (9 + 9 * v + 4 * (v * v) + v * v * v) * e) / (v * v) + (3 - (3 + 3 * v + v * v) * e) / (v * v))%C.
Proof. intros V. cnum. field. exact V. Qed.

Section Small.
  Variables (iv kv : nat -> C -> C) (mu_0 : R) (s : mhalf) (c n r : R).
  Hypotheses (M : 0 < mu_0) (F : 0 < fd_freq (mh_med s)) (S : 0 < fd_sigma (mh_med s)) (U : c * c + n * n = 1) (P : 0 < r).
  Let k : C := mh_k mu_0 s.
  Let kk : C := (Ci * k)%C.
  Let u : C := (kk * RtoC r)%C.
  Let w : R := 2 * PI * fd_freq (mh_med s).
  Let num : R := w * mu_0 * Cmod (fd_sigma_hat (mh_med s)) * r ^ 2.
  Hypothesis Nu : num <= 1.
  Let b : C := (Ci * RtoC (w * mu_0) * fd_sigma_hat (mh_med s) * RtoC (r ^ 2) / 4)%C.
  Let K : 0 < Re kk := mh_k_im mu_0 s M F S.
  Lemma w_pos : 0 < w. Proof. unfold w. pose proof PI_RGT_0. nra. Qed.
  Lemma kk_nz : kk <> RtoC 0. Proof. intros E. rewrite E in K. cbn in K. lra. Qed.
  Lemma u_nz : u <> RtoC 0. Proof. unfold u. apply Cmult_neq_0; [exact kk_nz|apply RtoC_neq; lra]. Qed.
  Lemma u_re : 0 <= Re u. Proof. unfold u. replace (Re (kk * RtoC r)%C) with (Re kk * r) by (cbn; ring). pose proof K. nra. Qed.
  Lemma u_sq : (u * u)%C = (RtoC 4 * b)%C.
  Proof.
    unfold u, b. transitivity (kk * kk * RtoC (r ^ 2))%C; [unfold kk; replace (RtoC (r ^ 2)) with (RtoC r * RtoC r)%C by (rewrite <- RtoC_mult; f_equal; ring); ring|].
    unfold kk. rewrite (kk2 k). unfold k. rewrite mh_k_sq. generalize (RtoC (r ^ 2)). intros x. unfold w. rewrite (RtoC_mult (2 * PI * fd_freq (mh_med s)) mu_0). generalize (RtoC (2 * PI * fd_freq (mh_med s))) (RtoC mu_0) (fd_sigma_hat (mh_med s)). intros a d g. cnum. field. intros E. apply (f_equal fst) in E. cbn in E. lra.
  Qed.
  Lemma Cmod_i : Cmod Ci = 1. Proof. unfold Cmod, Ci; cbn. replace (0 * (0 * 1) + 1 * (1 * 1)) with 1 by ring. apply sqrt_1. Qed.
  Lemma num_u : Cmod u * Cmod u = num.
  Proof.
    rewrite <- Cmod_mult, u_sq. unfold b. transitivity (Cmod (Ci * RtoC (w * mu_0) * fd_sigma_hat (mh_med s) * RtoC (r ^ 2))%C).
    - f_equal. cnum. field. intros E. apply (f_equal fst) in E. cbn in E. lra.
    - rewrite !Cmod_mult, Cmod_i, !Cmod_R. pose proof w_pos. rewrite (Rabs_pos_eq (w * mu_0)) by nra. rewrite Rabs_pos_eq by (apply pow2_ge_0). unfold num. ring.
  Qed.
  Lemma num_pos : 0 < num. Proof. rewrite <- num_u. pose proof (proj1 (Cmod_gt_0 u) u_nz). nra. Qed.
  Lemma u_abs : Cmod u = sqrt num. Proof. rewrite <- num_u. symmetry. apply sqrt_square, Cmod_ge_0. Qed.
  Lemma u_one : Cmod u <= 1. Proof. pose proof num_u. pose proof (Cmod_ge_0 u). nra. Qed.
  Lemma u_cube : Cmod u ^ 3 = num * sqrt num. Proof. rewrite <- num_u at 1. rewrite <- u_abs. ring. Qed.

  Let H : cvec := mh_H iv kv mu_0 s true (at_distance (mh_loc s) c n r).
  Let o := mh_orient s.
  Let mom : R := mh_moment s / (4 * PI * r ^ 3).
  Lemma mom_eq : RtoC (mh_moment s / (4 * PI)) = (RtoC mom * (RtoC r * RtoC r * RtoC r))%C.
  Proof. rewrite <- !RtoC_mult. f_equal. unfold mom. field. pose proof PI_RGT_0. lra. Qed.

  Lemma small_transverse : Cmod (transverse H c n + RtoC (mom * (vy o * c - vx o * n)) * b)%C <= 3 / 10 * Rabs (mom * (vy o * c - vx o * n)) * (num * sqrt num).
  Proof.
    destruct (parts_of iv kv mu_0 s c n M F S U r P) as (_ & T & _). fold k kk o in T. unfold H. rewrite T, mom_eq. destruct (tp_u kk r kk_nz P) as (E & _). fold u in E. rewrite E.
    pose proof (profile1 u u_re u_nz u_one) as B. set (p1 := ((3 - (3 + 3 * u + u * u) * cexp (- u)) / (u * u))%C) in *. pose proof u_sq as Q. pose proof (rn r P) as N.
    match goal with |- Cmod ?z <= _ => replace z with (RtoC (mom * (vy o * c - vx o * n)) * (2 * (p1 - RtoC (1 / 2) + RtoC (1 / 8) * (u * u))))%C end.
    - eapply Rle_trans; [apply scaled, scaled, B|]. rewrite !Cmod_R, u_cube, (Rabs_pos_eq 2) by lra. pose proof (Rabs_pos (mom * (vy o * c - vx o * n))).
      assert (0 <= num * sqrt num) by (rewrite <- u_cube; apply pow_le, Cmod_ge_0). assert (0 <= Rabs (mom * (vy o * c - vx o * n)) * (num * sqrt num)) by nra. lra.
    - rewrite Q. clearbody p1 b. rewrite RtoC_mult. generalize (RtoC (vy o * c - vx o * n)) (RtoC mom). intros a m. clear - N. generalize dependent (RtoC r). intros x N.
      unfold Rdiv. rewrite !RtoC_mult, !Cmult_1_l, !RtoC_inv by lra. replace (RtoC 8) with ((1 + 1) * (1 + 1) * (1 + 1))%C by (ceq; ring). cnum. field. cnz N.
  Qed.
  Lemma small_radial : vz o = 0 -> Cmod (radial H c n) <= Rabs (mom * (vx o * c + vy o * n)) * (num * sqrt num).
  Proof.
    intros Z. destruct (parts_of iv kv mu_0 s c n M F S U r P) as (_ & _ & T). fold k kk o in T. unfold H. rewrite T, Z, mom_eq. destruct (tp_u kk r kk_nz P) as (_ & E). fold u in E. rewrite E.
    pose proof (profile2 u u_re u_nz u_one) as B. set (p1 := ((12 - (12 + 12 * u + 5 * (u * u) + u * u * u) * cexp (- u)) / (u * u))%C) in *. pose proof (rn r P) as N.
    match goal with |- Cmod ?z <= _ => replace z with (RtoC (mom * (vx o * c + vy o * n)) * (- (2) * (p1 - 1)))%C end.
    - eapply Rle_trans; [apply scaled, scaled, B|]. rewrite Cmod_opp, !Cmod_R, u_cube, (Rabs_pos_eq 2) by lra. right. field.
    - clearbody p1. rewrite RtoC_mult. generalize (RtoC (vx o * c + vy o * n)) (RtoC mom). intros a m. clear - N. generalize dependent (RtoC r). intros x N.
      cnum. field. cnz N.
  Qed.
  Lemma small_vertical : vx o * c + vy o * n = 0 -> Cmod (cvz H + RtoC (mom * vz o) * b)%C <= Rabs (mom * vz o) * (num * sqrt num).
  Proof.
    intros Z. destruct (parts_of iv kv mu_0 s c n M F S U r P) as (T & _ & _). fold k kk o in T. unfold H. rewrite T, Z, mom_eq. destruct (tp_u kk r kk_nz P) as (E1 & E2). fold u in E1, E2. rewrite E1, E2.
    pose proof (profile3 u u_re u_nz u_one) as B. set (p3 := ((9 - (9 + 9 * u + 4 * (u * u) + u * u * u) * cexp (- u)) / (u * u))%C) in *. pose proof (rn r P) as N. pose proof u_sq as Q.
    set (p1 := ((3 - (3 + 3 * u + u * u) * cexp (- u)) / (u * u))%C) in *. set (p2 := ((12 - (12 + 12 * u + 5 * (u * u) + u * u * u) * cexp (- u)) / (u * u))%C) in *.
    assert (PP : p2 = (p3 + p1)%C) by (apply p_split, u_nz).
    match goal with |- Cmod ?z <= _ => replace z with (RtoC (mom * vz o) * (- (2) * (p3 - RtoC (1 / 2) - RtoC (1 / 8) * (u * u))))%C end.
    - eapply Rle_trans; [apply scaled, scaled, B|]. rewrite Cmod_opp, !Cmod_R, u_cube, (Rabs_pos_eq 2) by lra. pose proof (Rabs_pos (mom * vz o)).
      assert (0 <= num * sqrt num) by (rewrite <- u_cube; apply pow_le, Cmod_ge_0). assert (0 <= Rabs (mom * vz o) * (num * sqrt num)) by nra. lra.
    - rewrite Q, PP. clearbody p1 p3 b. rewrite RtoC_mult. generalize (RtoC (vz o)) (RtoC mom). intros a m. clear - N. generalize dependent (RtoC r). intros x N.
      unfold Rdiv. rewrite !RtoC_mult, !Cmult_1_l, !RtoC_inv by lra. replace (RtoC 8) with ((1 + 1) * (1 + 1) * (1 + 1))%C by (ceq; ring). cnum. field. cnz N.
  Qed.
  (** the field at distance r with nothing subtracted, less the secondary one: the dipole in free space *)
  Let H0 : cvec := mh_H iv kv mu_0 s false (at_distance (mh_loc s) c n r).
  Lemma primary_of : (cvz H0 - cvz H)%C = RtoC (- (mom * vz o)) /\ (transverse H0 c n - transverse H c n)%C = RtoC (- (mom * (vy o * c - vx o * n))).
  Proof.
    assert (X : vx (at_distance (mh_loc s) c n r) - vx (mh_loc s) = r * c) by (cbn; ring).
    assert (Y : vy (at_distance (mh_loc s) c n r) - vy (mh_loc s) = r * n) by (cbn; ring).
    assert (O : off s (at_distance (mh_loc s) c n r)).
    { unfold off. destruct (Req_dec c 0) as [Zc|Nc]; [right|left]; intros Z.
      - rewrite Z in Y. assert (r * n = 0) by lra. assert (n <> 0) by nra. nra.
      - rewrite Z in X. assert (r * c = 0) by lra. nra. }
    assert (Rr : sqrt ((r * c) ^ 2 + (r * n) ^ 2) = r).
    { replace ((r * c) ^ 2 + (r * n) ^ 2) with (r ^ 2 * (c * c + n * n)) by ring. rewrite U, Rmult_1_r. apply sqrt_pow2. lra. }
    unfold H, H0. rewrite !(mh_form _ _ _ _ _ _ O), X, Y. fold o. set (V := mh_vec iv kv (mh_k mu_0 s) (vx o) (vy o) (vz o) (r * c) (r * n)).
    unfold transverse. cbn [cvx cvy cvz cvscal cvsub cvof cvzero]. unfold mh_prim. cbv zeta. rewrite Rr. cbn [vx vy vz].
    assert (E0 : forall A B : R, A = B -> RtoC A = RtoC B) by (intros A B ->; reflexivity). pose proof PI_RGT_0. split.
    - transitivity (RtoC (mh_moment s / (4 * PI) * (- vz o / r ^ 3))); [rewrite RtoC_mult; ring|]. apply E0. unfold mom. field. lra.
    - match goal with |- ?a = _ => transitivity (RtoC (mh_moment s / (4 * PI) * (- n * (3 * (r * c) * (vx o * (r * c) + vy o * (r * n)) / r ^ 5 - vx o / r ^ 3) + c * (3 * (r * n) * (vx o * (r * c) + vy o * (r * n)) / r ^ 5 - vy o / r ^ 3))))
      end; [rewrite (RtoC_mult (_ / _)), RtoC_plus, (RtoC_mult (- n)), (RtoC_mult c (_ - _)); ring|]. apply E0. unfold mom. field. lra.
  Qed.
End Small.

Ltac pos3 := repeat match goal with |- 0 < ?a * ?b => apply (Rmult_lt_0_compat a b) end; lra.
Lemma im_le z : Rabs (Im z) <= Cmod z.
Proof. destruct z as [a b]. eapply Rle_trans; [apply Rmax_r|exact (proj1 (sqrt_plus_sqr a b))]. Qed.

(** a ratio within e of b reads within 4 e / (w mu r^2) of the conductivity that makes b *)
Lemma reading f mu sg r Hs m e : 0 < f -> 0 < mu -> 0 < r -> m <> 0 ->
  Cmod (Hs + RtoC m * (Ci * RtoC (2 * PI * f * mu) * RtoC sg * RtoC (r ^ 2) / 4))%C <= Rabs m * e ->
  Rabs (apparent_conductivity f mu r Hs (RtoC (- m)) - sg) <= 4 / (2 * PI * f * mu * r ^ 2) * e.
Proof.
  intros F M P N B. pose proof PI_RGT_0 as Pi. unfold apparent_conductivity. set (q := 4 / (2 * PI * f * mu * r ^ 2)).
  assert (W : 0 < 2 * PI * f * mu * r ^ 2) by (assert (0 < r ^ 2) by (apply pow_lt; lra); pos3).
  assert (Q : 0 < q) by (apply Rdiv_lt_0_compat; lra).
  set (b := (Ci * RtoC (2 * PI * f * mu) * RtoC sg * RtoC (r ^ 2) / 4)%C) in *.
  assert (Ib : Im b = 2 * PI * f * mu * r ^ 2 * sg / 4).
  { unfold b. replace (Ci * RtoC (2 * PI * f * mu) * RtoC sg * RtoC (r ^ 2) / 4)%C with (RtoC (2 * PI * f * mu * r ^ 2 * sg / 4) * Ci)%C.
    - cbn [Im Cmult RtoC fst snd Ci]. cbn. field.
    - unfold Rdiv. rewrite !RtoC_mult, RtoC_inv by lra. unfold Cdiv. ring. }
  assert (Nm : RtoC (- m) <> RtoC 0) by (apply RtoC_neq; lra).
  assert (E : (Hs / RtoC (- m))%C = (b + (Hs + RtoC m * b) * / RtoC (- m))%C).
  { rewrite RtoC_opp in *. assert (RtoC m <> RtoC 0) by (apply RtoC_neq; exact N). field. exact Nm. }
  rewrite E. set (y := ((Hs + RtoC m * b) * / RtoC (- m))%C). assert (Iy : Im (b + y)%C = Im b + Im y) by reflexivity. rewrite Iy, Ib. unfold y. match goal with |- Rabs ?x <= _ => replace x with (q * Im ((Hs + RtoC m * b) * / RtoC (- m))%C) end.
  - rewrite Rabs_mult, (Rabs_pos_eq q) by lra. apply Rmult_le_compat_l; [lra|]. eapply Rle_trans; [apply im_le|]. rewrite Cmod_mult, Cmod_inv by exact Nm.
    rewrite Cmod_R, Rabs_Ropp. pose proof (Rabs_pos_lt m N). apply Rle_div_l; [lra|]. rewrite Rmult_comm. exact B.
  - unfold q. field. split; [|split; [|split]]; lra.
Qed.

Section Meter.
  Variables (iv kv : nat -> C -> C) (mu_0 : R) (s : mhalf) (c n r : R).
  Hypotheses (M : 0 < mu_0) (F : 0 < fd_freq (mh_med s)) (S : 0 < fd_sigma (mh_med s)) (U : c * c + n * n = 1) (P : 0 < r) (Q : is_True (fd_qs (mh_med s)) = true) (Mo : mh_moment s <> 0).
  Let f := fd_freq (mh_med s).
  Let sg := fd_sigma (mh_med s).
  Let N := induction_number f mu_0 sg r.
  Hypothesis Nu : N <= 1.
  Let Hs : cvec := mh_H iv kv mu_0 s true (at_distance (mh_loc s) c n r).
  Let Ht : cvec := mh_H iv kv mu_0 s false (at_distance (mh_loc s) c n r).
  Lemma qs_hat : fd_sigma_hat (mh_med s) = RtoC sg.
  Proof. unfold fd_sigma_hat, sigma_hat. rewrite Q. reflexivity. Qed.
  Lemma qs_num : 2 * PI * fd_freq (mh_med s) * mu_0 * Cmod (fd_sigma_hat (mh_med s)) * r ^ 2 = N.
  Proof. rewrite qs_hat, Cmod_R, Rabs_pos_eq by (unfold sg; lra). reflexivity. Qed.
  Lemma meter_rest a : 4 / (2 * PI * f * mu_0 * r ^ 2) * (a * (N * sqrt N)) = 4 * a * sg * sqrt N.
  Proof. unfold N, induction_number at 1. pose proof PI_RGT_0. field. unfold f. repeat split; lra. Qed.
  Lemma meter_vertical : vx (mh_orient s) * c + vy (mh_orient s) * n = 0 -> vz (mh_orient s) <> 0 ->
    Rabs (apparent_conductivity f mu_0 r (cvz Hs) (cvz Ht - cvz Hs)%C - sg) <= 4 * sg * sqrt N.
  Proof.
    intros Z V. unfold Hs, Ht. rewrite (proj1 (primary_of iv kv mu_0 s c n r U P)). set (m := mh_moment s / (4 * PI * r ^ 3) * vz (mh_orient s)).
    assert (Nm : m <> 0). { unfold m. pose proof PI_RGT_0. apply Rmult_integral_contrapositive_currified; [|exact V]. apply Rmult_integral_contrapositive_currified; [exact Mo|]. apply Rinv_neq_0_compat. assert (0 < r ^ 3) by (apply pow_lt; lra). nra. }
    replace (4 * sg * sqrt N) with (4 * 1 * sg * sqrt N) by ring. rewrite <- meter_rest. apply reading; try assumption.
    pose proof (small_vertical iv kv mu_0 s c n r M F S U P) as B. cbv zeta in B. rewrite qs_num in B. rewrite qs_hat in B.
    eapply Rle_trans; [exact (B Nu Z)|]. fold m. right. ring.
  Qed.
  Lemma meter_transverse : vy (mh_orient s) * c - vx (mh_orient s) * n <> 0 ->
    Rabs (apparent_conductivity f mu_0 r (transverse Hs c n) (transverse Ht c n - transverse Hs c n)%C - sg) <= 6 / 5 * sg * sqrt N.
  Proof.
    intros V. unfold Hs, Ht. rewrite (proj2 (primary_of iv kv mu_0 s c n r U P)). set (m := mh_moment s / (4 * PI * r ^ 3) * (vy (mh_orient s) * c - vx (mh_orient s) * n)).
    assert (Nm : m <> 0). { unfold m. pose proof PI_RGT_0. apply Rmult_integral_contrapositive_currified; [|exact V]. apply Rmult_integral_contrapositive_currified; [exact Mo|]. apply Rinv_neq_0_compat. assert (0 < r ^ 3) by (apply pow_lt; lra). nra. }
    replace (6 / 5 * sg * sqrt N) with (4 * (3 / 10) * sg * sqrt N) by field. rewrite <- meter_rest. apply reading; try assumption.
    pose proof (small_transverse iv kv mu_0 s c n r M F S U P) as B. cbv zeta in B. rewrite qs_num in B. rewrite qs_hat in B.
    eapply Rle_trans; [exact (B Nu)|]. fold m. right. ring.
  Qed.
End Meter.

Lemma loop_u f sg mu a I n : 0 < f -> 0 < sg -> 0 < mu -> 0 < a ->
  exists u, 0 <= Re u /\ u <> RtoC 0 /\ (u * u)%C = (Ci * RtoC (2 * PI * f * mu) * RtoC sg * RtoC (a ^ 2))%C /\
  loop_hz f sg mu a I n true = (RtoC (n * I / a) * ((3 - (3 + 3 * u + u * u) * cexp (- u)) / (u * u) - RtoC (1 / 2)))%C.
Proof.
  intros F Sg M A. pose proof PI_RGT_0 as Pi. unfold loop_hz. cbv zeta. set (z := (- Ci * RtoC (2 * PI * f) * RtoC mu * RtoC sg)%C).
  assert (K2 : (csqrt z * csqrt z)%C = z) by (apply csqrt_sq).
  assert (Zi : Im z < 0). { assert (0 < 2 * PI * f * mu * sg) by (pos3). replace (Im z) with (- (2 * PI * f * mu * sg)) by (unfold z; cbn; ring). lra. }
  destruct (csqrt_lower z Zi) as (K3 & K4). set (k := csqrt z) in *. assert (K0 : k <> RtoC 0) by (intros E; rewrite E in K4; cbn in K4; lra).
  set (u := (Ci * k * RtoC a)%C). assert (CA : RtoC a <> RtoC 0) by (apply RtoC_neq; lra).
  assert (U0 : u <> RtoC 0). { unfold u. apply Cmult_neq_0; [apply Cmult_neq_0; [|exact K0]|exact CA]. intro E. apply (f_equal Im) in E. simpl in E. lra. }
  assert (UU : (u * u)%C = (- (k * k) * (RtoC a * RtoC a))%C).
  { unfold u. replace (Ci * k * a * (Ci * k * a))%C with ((Ci * k * (Ci * k)) * (a * a))%C by ring. rewrite iku. ring. }
  exists u. split; [|split; [exact U0|split]].
  - unfold u. replace (Re (Ci * k * RtoC a)%C) with (- Im k * a) by (cbn; ring). nra.
  - rewrite UU, K2. unfold z. replace (RtoC (a ^ 2)) with (RtoC a * RtoC a)%C by (rewrite <- RtoC_mult; f_equal; ring). rewrite (RtoC_mult (2 * PI * f) mu). ring.
  - replace (- Ci * k * a)%C with (- u)%C by (unfold u; ring).
    replace (3 * Ci * k * a)%C with (3 * u)%C by (unfold u; ring).
    cbn [cpow]. replace (k * (k * 1) * (a * (a * 1)))%C with (- (u * u))%C by (rewrite UU; ring).
    replace (k * (k * 1) * (a * (a * (a * 1))))%C with (- (u * u) * a)%C by (rewrite UU; ring).
    unfold Rdiv. rewrite !RtoC_mult, !RtoC_inv by lra. generalize (cexp (- u))%C. intro e. clearbody u.
    cnum. field. repeat split; try first [assumption|exact two_neq].
    intro E. apply (Cmult_neq_0 u u U0 U0). replace (u * u)%C with (- - (u * u))%C by ring. rewrite E. ring.
Qed.

Lemma loop_low f sg mu a I n : 0 < f -> 0 < sg -> 0 < mu -> 0 < a -> let N := induction_number f mu sg a in N <= 1 ->
  Cmod (loop_hz f sg mu a I n true + RtoC (n * I / (2 * a)) * (Ci * RtoC (N / 4)))%C <= 3 / 10 * Rabs (n * I / (2 * a)) * (N * sqrt N).
Proof.
  intros F Sg M A N N1. pose proof PI_RGT_0 as Pi. destruct (loop_u f sg mu a I n F Sg M A) as (u & D & U0 & UU & ->).
  assert (NP : 0 < N) by (unfold N, induction_number; assert (0 < a ^ 2) by (apply pow_lt; lra); pos3).
  assert (UN : (u * u)%C = (Ci * RtoC N)%C). { rewrite UU. unfold N, induction_number. rewrite !RtoC_mult. ring. }
  assert (CN : Cmod u * Cmod u = N). { rewrite <- Cmod_mult, UN, Cmod_mult, Cmod_i, Cmod_R, Rabs_pos_eq by lra. ring. }
  assert (U1 : Cmod u <= 1) by (pose proof (Cmod_ge_0 u); nra).
  assert (CU : Cmod u = sqrt N) by (rewrite <- CN; symmetry; apply sqrt_square, Cmod_ge_0).
  pose proof (profile1 u D U0 U1) as B. set (p := ((3 - (3 + 3 * u + u * u) * cexp (- u)) / (u * u))%C) in *. rewrite UN in B.
  match goal with |- Cmod ?z <= _ => replace z with (RtoC (n * I / a) * (p - RtoC (1 / 2) + RtoC (1 / 8) * (Ci * RtoC N)))%C end.
  - eapply Rle_trans; [apply scaled, B|]. rewrite Cmod_R. replace (n * I / (2 * a)) with (n * I / a * / 2) by (field; lra). rewrite Rabs_mult, (Rabs_pos_eq (/ 2)) by lra.
    pose proof (Rabs_pos (n * I / a)). replace (Cmod u ^ 3) with (N * sqrt N) by (rewrite <- CN at 1; rewrite <- CU; ring).
    assert (0 <= N * sqrt N) by (pose proof (sqrt_pos N); nra). assert (0 <= Rabs (n * I / a) * (N * sqrt N)) by nra. lra.
  - rewrite Cmult_plus_distr_l. f_equal. transitivity (Ci * RtoC (n * I / a * (1 / 8) * N))%C; [rewrite !RtoC_mult; ring|].
    transitivity (Ci * RtoC (n * I / (2 * a) * (N / 4)))%C; [f_equal; f_equal; field; lra|rewrite !RtoC_mult; ring].
Qed.
