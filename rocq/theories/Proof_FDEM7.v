(** The secondary field of the half-space dipole vanishes at low frequency (C64). *)
From Coq Require Import Reals Lra List Bool String.
From Coquelicot Require Import Coquelicot.
From Verif Require Import Vec3 Calculus Deriv Cplx CplxTaylor Radial Numpy Model_Spatial Model_Static Model_FDEM
  Proof_Static2 Proof_FDEM Proof_FDEM2 Proof_FDEM3 Proof_FDEM4 Proof_FDEM5 Proof_FDEM6 Proof_Loop2.
Open Scope R_scope.

Lemma Cmod_Ci : Cmod Ci = 1.
Proof. unfold Cmod, Ci; simpl. replace (0 * (0 * 1) + 1 * (1 * 1)) with 1 by ring. apply sqrt_1. Qed.

Lemma Cmod_tri3 a b c : Cmod (a + b + c)%C <= Cmod a + Cmod b + Cmod c.
Proof. eapply Rle_trans; [apply Cmod_triangle|]. apply Rplus_le_compat_r, Cmod_triangle. Qed.

Section Low.
  Variable iv kv : nat -> C -> C.
  Variable mu_0 : R.
  Variable B : R.
  Hypothesis HB : forall z, Cmod z <= 1 -> Cmod (iv 1 z * kv 1 z - iv 2 z * kv 2 z)%C <= B.
  Variables (k : C) (sx sy sz x y : R).
  Let r := sqrt (x ^ 2 + y ^ 2).
  Hypothesis Hr : 0 < r.
  Hypothesis Hk : k <> 0%C.
  Let u := (Ci * k * r)%C.
  Hypothesis Hu : Cmod u <= 1.

  Let ep1 := ((3 - (3 + 3 * u + u * u) * cexp (- u)) / (u * u) - / RtoC 2)%C.
  Let ep2 := ((9 - (9 + 9 * u + 4 * (u * u) + u * u * u) * cexp (- u)) / (u * u) - / RtoC 2)%C.
  Let ep3 := ((2 * (u * u) - 12 + (u * u * u + 5 * (u * u) + 12 * u + 12) * cexp (- u)) / (u * u) - 1)%C.

  Lemma Nr : RtoC r <> 0%C. Proof. apply RtoC_neq; lra. Qed.
  Lemma Nu : u <> 0%C.
  Proof.
    unfold u. apply Cmult_neq_0; [apply Cmult_neq_0; [|exact Hk]|exact Nr].
    intro E. apply (f_equal Im) in E. simpl in E. lra.
  Qed.
  Lemma uu : (u * u)%C = (- (k * k) * (RtoC r * RtoC r))%C.
  Proof. unfold u. replace (Ci * k * r * (Ci * k * r))%C with (Ci * k * (Ci * k) * (RtoC r * RtoC r))%C by ring. rewrite iku. ring. Qed.
  Lemma kk : (k * k)%C = (- (u * u) / (RtoC r * RtoC r))%C.
  Proof. rewrite uu. field. exact Nr. Qed.
  Lemma Nuu : (- (u * u))%C <> 0%C.
  Proof.
    intro E. apply (Cmult_neq_0 u u Nu Nu). replace (u * u)%C with (- - (u * u))%C by ring. rewrite E. ring.
  Qed.

  Lemma phi_eps : mh_phi k r = ((1 - 2 * ep1) / (RtoC r * RtoC r))%C.
  Proof.
    unfold mh_phi, ep1. replace (- Ci * k * r)%C with (- u)%C by (unfold u; ring).
    replace (3 * Ci * k * r)%C with (3 * u)%C by (unfold u; ring).
    replace (k ^ 2)%C with (k * k)%C by (cbn [cpow]; ring). rewrite kk.
    generalize (cexp (- u))%C. intro e. pose proof Nu as N1. pose proof Nr as N2. pose proof Nuu as N3.
    revert N1 N3. generalize u. intros v N1 N3. cnum. field. repeat split; first [assumption|exact two_neq].
  Qed.

  Lemma dphi_eps : mh_dphi_dr k r = (- (2 + 2 * ep3) / (RtoC r * RtoC r * RtoC r))%C.
  Proof.
    unfold mh_dphi_dr, ep3. replace (- Ci * k * r)%C with (- u)%C by (unfold u; ring).
    replace (12 * Ci * k * r)%C with (12 * u)%C by (unfold u; ring).
    replace (- Ci * k ^ 3 * RtoC r ^ 3)%C with (- (k * k) * (RtoC r * RtoC r) * u)%C by (unfold u; cbn [cpow]; ring).
    replace (k ^ 2)%C with (k * k)%C by (cbn [cpow]; ring). rewrite kk.
    generalize (cexp (- u))%C. intro e. pose proof Nu as N1. pose proof Nr as N2. pose proof Nuu as N3.
    revert N1 N3. generalize u. intros v N1 N3. cnum. field. repeat split; first [assumption|exact two_neq].
  Qed.

  Lemma hz_eps : mh_hz k r = (- (1 + 2 * ep2) / (RtoC r * RtoC r * RtoC r))%C.
  Proof.
    unfold mh_hz, ep2. replace (- Ci * k * r)%C with (- u)%C by (unfold u; ring).
    replace (9 * Ci * k * r)%C with (9 * u)%C by (unfold u; ring).
    replace (Ci * k ^ 3 * RtoC r ^ 3)%C with ((k * k) * (RtoC r * RtoC r) * u)%C by (unfold u; cbn [cpow]; ring).
    replace (k ^ 2)%C with (k * k)%C by (cbn [cpow]; ring). rewrite kk.
    generalize (cexp (- u))%C. intro e. pose proof Nu as N1. pose proof Nr as N2. pose proof Nuu as N3.
    revert N1 N3. generalize u. intros v N1 N3. cnum. field. repeat split; first [assumption|exact two_neq].
  Qed.

  Lemma g_bound : Cmod (mh_g iv kv k r) <= B * Cmod u / (r * r).
  Proof.
    unfold mh_g. fold u.
    assert (U2 : Cmod (u / 2)%C <= 1).
    { rewrite Cmod_div by (apply RtoC_neq; lra). rewrite Cmod_R, Rabs_right by lra. pose proof (Cmod_ge_0 u). lra. }
    pose proof (HB _ U2) as X. set (ik := Cmod _) in X. rewrite Cmod_mult. fold ik.
    assert (K2 : Cmod (k ^ 2)%C = Cmod u * Cmod u / (r * r)).
    { replace (k ^ 2)%C with (k * k)%C by (cbn [cpow]; ring). rewrite kk.
      rewrite Cmod_div by (apply Cmult_neq_0; exact Nr). rewrite Cmod_opp, !Cmod_mult, !Cmod_R, Rabs_right by lra. reflexivity. }
    rewrite K2. pose proof (Cmod_ge_0 u). assert (0 <= ik) by apply Cmod_ge_0.
    assert (I : 0 < / (r * r)) by (apply Rinv_0_lt_compat; nra).
    unfold Rdiv. set (j := / (r * r)) in *. set (a := Cmod u) in *. clearbody j a ik.
    apply Rle_trans with (a * a * j * B).
    - apply Rmult_le_compat_l; [|exact X]. apply Rmult_le_pos; nra.
    - assert (0 <= B) by lra. assert (a * a <= a) by nra. assert (0 <= j * B) by nra. nra.
  Qed.

  (** the three components of the secondary field *)
  Lemma low_diff :
    let md := sx * x + sy * y in let g := mh_g iv kv k r in
    let v := cvsub (mh_vec iv kv k sx sy sz x y) (cvof 1%C (mh_prim sx sy sz x y)) in
    cvx v = (RtoC (sz * x / r ^ 2) * g + RtoC (2 * sx / r ^ 3) * ep1 + RtoC (2 * md * x / r ^ 5) * (ep3 - ep1))%C /\
    cvy v = (RtoC (sz * y / r ^ 2) * g + RtoC (2 * sy / r ^ 3) * ep1 + RtoC (2 * md * y / r ^ 5) * (ep3 - ep1))%C /\
    cvz v = (RtoC (- (2 * sz) / r ^ 3) * ep2 - RtoC (md / r ^ 2) * g)%C.
  Proof.
    cbv zeta. unfold mh_vec, mh_prim. cbv zeta. fold r. rewrite phi_eps, dphi_eps, hz_eps.
    set (g := mh_g _ _ _ _). pose proof Nr as N. clearbody g ep1 ep2 ep3 r.
    split; [|split]; cbn [cvx cvy cvz cvsub cvof vx vy vz]; push; cnum; field; exact N.
  Qed.

  Definition low_const : R :=
    let R2 := / (r * r) in let R3 := / (r * r * r) in
    (Rabs sz + Rabs sx + Rabs sy) * (B * r * R2 * R2 + 340 * R3 + 1788 * R3 + 1110 * R3 + B * r * R2 * R2).

  Lemma low_bound :
    let v := cvsub (mh_vec iv kv k sx sy sz x y) (cvof 1%C (mh_prim sx sy sz x y)) in
    Cmod (cvx v) <= low_const * Cmod u /\ Cmod (cvy v) <= low_const * Cmod u /\ Cmod (cvz v) <= low_const * Cmod u.
  Proof.
    cbv zeta. destruct low_diff as [X [Y Z]]. cbv zeta in X, Y, Z. rewrite X, Y, Z. clear X Y Z.
    pose proof (P1_bound u Nu Hu) as E1. fold ep1 in E1.
    pose proof (P2_bound u Nu Hu) as E2. fold ep2 in E2.
    pose proof (P3_bound u Nu Hu) as E3. fold ep3 in E3.
    assert (E31 : Cmod (ep3 - ep1)%C <= 894 * Cmod u).
    { unfold Cminus. eapply Rle_trans; [apply Cmod_triangle|]. rewrite Cmod_opp. lra. }
    pose proof g_bound as G. unfold low_const.
    assert (Q : r * r = x ^ 2 + y ^ 2) by (apply sqrt_sqrt; nra).
    assert (AX : Rabs x <= r) by (apply Rabs_le; nra).
    assert (AY : Rabs y <= r) by (apply Rabs_le; nra).
    set (g := Cmod (mh_g iv kv k r)) in *. set (a := Cmod u) in *.
    set (A1 := Cmod ep1) in *. set (A2 := Cmod ep2) in *. set (A31 := Cmod (ep3 - ep1)%C) in *.
    assert (B0 : 0 <= B) by (eapply Rle_trans; [|apply (HB 0%C); rewrite Cmod_0; lra]; apply Cmod_ge_0).
    assert (a0 : 0 <= a) by apply Cmod_ge_0.
    assert (g0 : 0 <= g) by apply Cmod_ge_0.
    assert (A10 : 0 <= A1) by apply Cmod_ge_0. assert (A20 : 0 <= A2) by apply Cmod_ge_0. assert (A310 : 0 <= A31) by apply Cmod_ge_0.
    set (R2 := / (r * r)). set (R3 := / (r * r * r)).
    assert (R20 : 0 < R2) by (apply Rinv_0_lt_compat; nra).
    assert (R30 : 0 < R3) by (apply Rinv_0_lt_compat; apply Rmult_lt_0_compat; nra).
    pose proof (Rabs_pos sx) as px. pose proof (Rabs_pos sy) as py. pose proof (Rabs_pos sz) as pz.
    set (S := Rabs sz + Rabs sx + Rabs sy).
    assert (Gb : g <= B * a * R2) by (unfold R2; unfold Rdiv in G; lra).
    assert (MD : Rabs (sx * x + sy * y) <= S * r).
    { eapply Rle_trans; [apply Rabs_triang|]. rewrite !Rabs_mult. unfold S. pose proof (Rabs_pos x). pose proof (Rabs_pos y). nra. }
    assert (T1 : forall w t, Rabs w <= S -> Rabs t <= r -> Rabs (w * t / r ^ 2) * g <= S * (B * r * R2 * R2) * a).
    { intros w t Hw Ht. unfold Rdiv. rewrite !Rabs_mult, Rabs_inv, (Rabs_right (r ^ 2)) by (apply Rle_ge, pow_le; lra).
      replace (/ r ^ 2) with R2 by (unfold R2; f_equal; ring). pose proof (Rabs_pos w). pose proof (Rabs_pos t).
      replace (S * (B * r * R2 * R2) * a) with ((S * r * R2) * (B * a * R2)) by ring.
      apply Rmult_le_compat; [|exact g0| |exact Gb].
      - apply Rmult_le_pos; [|lra]. apply Rmult_le_pos; assumption.
      - apply Rmult_le_compat_r; [lra|]. apply Rmult_le_compat; assumption. }
    assert (T2 : forall w, Rabs w <= S -> Rabs (2 * w / r ^ 3) * A1 <= S * (340 * R3) * a).
    { intros w Hw. unfold Rdiv. rewrite !Rabs_mult, Rabs_inv, (Rabs_right (r ^ 3)), (Rabs_right 2) by (try apply Rle_ge, pow_le; lra).
      replace (/ r ^ 3) with R3 by (unfold R3; f_equal; ring). pose proof (Rabs_pos w).
      replace (S * (340 * R3) * a) with ((2 * S * R3) * (170 * a)) by ring.
      apply Rmult_le_compat; [|exact A10| |exact E1].
      - apply Rmult_le_pos; [|lra]. lra.
      - apply Rmult_le_compat_r; [lra|]. lra. }
    assert (T3 : forall t, Rabs t <= r -> Rabs (2 * (sx * x + sy * y) * t / r ^ 5) * A31 <= S * (1788 * R3) * a).
    { intros t Ht. unfold Rdiv. rewrite !Rabs_mult, Rabs_inv, (Rabs_right (r ^ 5)), (Rabs_right 2) by (try apply Rle_ge, pow_le; lra).
      pose proof (Rabs_pos (sx * x + sy * y)). pose proof (Rabs_pos t). set (m := Rabs (sx * x + sy * y)) in *.
      replace (S * (1788 * R3) * a) with ((2 * (S * r) * r * / r ^ 5) * (894 * a)) by (unfold R3; field; lra).
      assert (0 < / r ^ 5) by (apply Rinv_0_lt_compat, pow_lt; lra).
      assert (S0 : 0 <= S * r) by lra.
      apply Rmult_le_compat; [|exact A310| |exact E31].
      - apply Rmult_le_pos; [|lra]. apply Rmult_le_pos; lra.
      - apply Rmult_le_compat_r; [lra|]. apply Rmult_le_compat; lra. }
    assert (T4 : Rabs (- (2 * sz) / r ^ 3) * A2 <= S * (1110 * R3) * a).
    { unfold Rdiv. rewrite !Rabs_mult, Rabs_Ropp, Rabs_mult, Rabs_inv, (Rabs_right (r ^ 3)), (Rabs_right 2) by (try apply Rle_ge, pow_le; lra).
      replace (/ r ^ 3) with R3 by (unfold R3; f_equal; ring).
      replace (S * (1110 * R3) * a) with ((2 * S * R3) * (555 * a)) by ring.
      apply Rmult_le_compat; [|exact A20| |exact E2].
      - apply Rmult_le_pos; [|lra]. lra.
      - apply Rmult_le_compat_r; [lra|]. unfold S; lra. }
    assert (T5 : Rabs ((sx * x + sy * y) / r ^ 2) * g <= S * (B * r * R2 * R2) * a).
    { unfold Rdiv. rewrite !Rabs_mult, Rabs_inv, (Rabs_right (r ^ 2)) by (apply Rle_ge, pow_le; lra).
      replace (/ r ^ 2) with R2 by (unfold R2; f_equal; ring). pose proof (Rabs_pos (sx * x + sy * y)).
      replace (S * (B * r * R2 * R2) * a) with ((S * r * R2) * (B * a * R2)) by ring.
      apply Rmult_le_compat; [|exact g0| |exact Gb].
      - apply Rmult_le_pos; lra.
      - apply Rmult_le_compat_r; lra. }
    assert (SX : Rabs sx <= S) by (unfold S; lra). assert (SY : Rabs sy <= S) by (unfold S; lra). assert (SZ : Rabs sz <= S) by (unfold S; lra).
    assert (POS : 0 <= S * a) by (apply Rmult_le_pos; unfold S; lra).
    assert (L1 : 0 <= S * (B * r * R2 * R2) * a).
    { replace (S * (B * r * R2 * R2) * a) with ((S * a) * (B * r * R2 * R2)) by ring. apply Rmult_le_pos; [exact POS|].
      repeat apply Rmult_le_pos; lra. }
    assert (L2 : 0 <= S * R3 * a).
    { replace (S * R3 * a) with ((S * a) * R3) by ring. apply Rmult_le_pos; lra. }
    replace (S * (B * r * R2 * R2 + 340 * R3 + 1788 * R3 + 1110 * R3 + B * r * R2 * R2) * a)
      with (S * (B * r * R2 * R2) * a + S * (340 * R3) * a + S * (1788 * R3) * a + S * (1110 * R3) * a + S * (B * r * R2 * R2) * a) by ring.
    assert (L3 : 0 <= S * (340 * R3) * a /\ 0 <= S * (1788 * R3) * a /\ 0 <= S * (1110 * R3) * a).
    { replace (S * (340 * R3) * a) with (340 * (S * R3 * a)) by ring. replace (S * (1788 * R3) * a) with (1788 * (S * R3 * a)) by ring.
      replace (S * (1110 * R3) * a) with (1110 * (S * R3 * a)) by ring. lra. }
    split; [|split].
    - eapply Rle_trans; [apply Cmod_tri3|]. rewrite !Cmod_mult, !Cmod_R.
      fold g A1 A31. pose proof (T1 sz x SZ AX). pose proof (T2 sx SX). pose proof (T3 x AX). lra.
    - eapply Rle_trans; [apply Cmod_tri3|]. rewrite !Cmod_mult, !Cmod_R.
      fold g A1 A31. pose proof (T1 sz y SZ AY). pose proof (T2 sy SY). pose proof (T3 y AY). lra.
    - unfold Cminus. eapply Rle_trans; [apply Cmod_triangle|]. rewrite Cmod_opp, !Cmod_mult, !Cmod_R. fold g A2. lra.
  Qed.
End Low.

(** the limit *)
Lemma mh_low_frequency iv kv mu_0 B s p :
  (forall z, Cmod z <= 1 -> Cmod (iv 1%nat z * kv 1%nat z - iv 2%nat z * kv 2%nat z)%C <= B) ->
  0 < mu_0 -> 0 < fd_sigma (mh_med s) -> 0 <= fd_eps (mh_med s) -> off s p ->
  forall eps, 0 < eps -> exists f0, 0 < f0 /\ forall f, 0 < f < f0 ->
    let h := mh_H iv kv mu_0 (with_freq s f) true p in
    Cmod (cvx h) < eps /\ Cmod (cvy h) < eps /\ Cmod (cvz h) < eps.
Proof.
  intros HB M Sg Ep O eps E. pose proof PI_RGT_0 as PP.
  destruct (off_pos s p O) as [P Q]. set (x := vx p - vx (mh_loc s)) in *. set (y := vy p - vy (mh_loc s)) in *.
  set (r := sqrt (x ^ 2 + y ^ 2)) in *.
  set (sg := fd_sigma (mh_med s)) in *. set (ee := fd_eps (mh_med s)) in *.
  set (L := low_const B (vx (mh_orient s)) (vy (mh_orient s)) (vz (mh_orient s)) x y).
  set (m4 := Rabs (mh_moment s / (4 * PI))).
  set (K := Rabs L * m4 + 1). assert (K0 : 0 < K).
  { unfold K. assert (0 <= Rabs L * m4) by (apply Rmult_le_pos; apply Rabs_pos). lra. }
  set (c := r * r * (2 * PI) * mu_0 * (sg + 2 * PI * ee)).
  assert (C0 : 0 < c).
  { unfold c. assert (0 <= 2 * PI * ee) by (apply Rmult_le_pos; lra).
    apply Rmult_lt_0_compat; [apply Rmult_lt_0_compat; [apply Rmult_lt_0_compat|]|]; try lra. nra. }
  set (d := Rmin 1 (eps / K)). assert (D : 0 < d) by (apply Rmin_pos; [lra|apply Rdiv_lt_0_compat; assumption]).
  exists (Rmin 1 (d * d / c)). split.
  { apply Rmin_pos; [lra|]. apply Rdiv_lt_0_compat; nra. }
  intros f [F1 F2]. pose proof (Rlt_le_trans _ _ _ F2 (Rmin_l _ _)) as F3. pose proof (Rlt_le_trans _ _ _ F2 (Rmin_r _ _)) as F4.
  cbv zeta.
  assert (O' : off (with_freq s f) p) by exact O.
  rewrite (mh_form _ _ _ _ _ _ O'). cbn [mh_loc mh_orient mh_moment with_freq]. fold x y.
  set (k := mh_k mu_0 (with_freq s f)).
  assert (Kn : k <> 0%C) by (apply mh_k_neq; assumption).
  set (u := (Ci * k * r)%C).
  assert (U : Cmod u * Cmod u <= c * f).
  { unfold u. rewrite !Cmod_mult, Cmod_Ci, Cmod_R, (Rabs_right r) by lra.
    replace (1 * Cmod k * r * (1 * Cmod k * r)) with (r * r * (Cmod k * Cmod k)) by ring.
    unfold k, mh_k. rewrite Cmod_csqrt, !Cmod_mult, Cmod_opp, Cmod_Ci, !Cmod_R.
    cbn [fd_freq with_freq mh_med]. rewrite (Rabs_right (2 * PI * f)), (Rabs_right mu_0) by nra.
    assert (SH : Cmod (fd_sigma_hat (mh_med (with_freq s f))) <= sg + 2 * PI * ee).
    { unfold fd_sigma_hat, sigma_hat. cbn [fd_qs fd_freq fd_sigma fd_eps with_freq mh_med]. fold sg ee.
      assert (0 <= 2 * PI * ee) by (apply Rmult_le_pos; lra).
      destruct (is_True (fd_qs (mh_med s))).
      - rewrite Cmod_R, Rabs_right by lra. lra.
      - eapply Rle_trans; [apply Cmod_triangle|]. rewrite !Cmod_mult, Cmod_Ci, !Cmod_R. unfold omega.
        rewrite (Rabs_right sg), (Rabs_right (2 * PI * f)), (Rabs_right ee) by nra. nra. }
    unfold c. replace (r * r * (2 * PI) * mu_0 * (sg + 2 * PI * ee) * f) with ((r * r) * ((2 * PI * f) * mu_0 * (sg + 2 * PI * ee))) by ring.
    apply Rmult_le_compat_l; [nra|]. rewrite Rmult_1_l. apply Rmult_le_compat_l; [|exact SH]. apply Rmult_le_pos; nra. }
  assert (U' : Cmod u < d).
  { assert (c * f < d * d).
    { apply (Rmult_lt_compat_l c) in F4; [|exact C0]. replace (c * (d * d / c)) with (d * d) in F4 by (field; lra). exact F4. }
    pose proof (Cmod_ge_0 u). nra. }
  assert (U1 : Cmod u <= 1) by (pose proof (Rmin_l 1 (eps / K)); fold d in H; lra).
  destruct (low_bound iv kv B HB k (vx (mh_orient s)) (vy (mh_orient s)) (vz (mh_orient s)) x y P Kn U1) as [A1 [A2 A3]].
  fold L in A1, A2, A3. fold r u in A1, A2, A3.
  assert (FIN : forall z, Cmod z <= L * Cmod u -> Cmod (RtoC (mh_moment s / (4 * PI)) * z)%C < eps).
  { intros z Hz. rewrite Cmod_mult, Cmod_R. fold m4.
    assert (m40 : 0 <= m4) by apply Rabs_pos. pose proof (Cmod_ge_0 u) as u0. pose proof (Rle_abs L) as LA.
    apply Rle_lt_trans with (m4 * (Rabs L * Cmod u)).
    - apply Rmult_le_compat_l; [exact m40|]. eapply Rle_trans; [exact Hz|]. apply Rmult_le_compat_r; assumption.
    - replace (m4 * (Rabs L * Cmod u)) with ((Rabs L * m4) * Cmod u) by ring.
      assert (0 <= Rabs L * m4) by (apply Rmult_le_pos; [apply Rabs_pos|exact m40]).
      assert (DK : K * d <= eps).
      { replace eps with (K * (eps / K)) by (field; lra). apply Rmult_le_compat_l; [lra|]. apply Rmin_r. }
      unfold K in DK, K0. nra. }
  split; [|split]; cbn [cvx cvy cvz cvscal]; apply FIN; assumption.
Qed.
