(** The dipole on a half-space against the layered theory (C117). *)
From Coq Require Import Reals Lra Psatz List.
From Coquelicot Require Import Coquelicot.
From Verif Require Import Vec3 Calculus Deriv Integral Cplx CplxTaylor SpecFun Numpy Model_FDEM Model_RTE Spec_FDEM Spec_Fourier Spec_Hankel Spec_HalfSpace
  Proof_Fourier Proof_Hankel Proof_RTE6 Proof_RTE9 Proof_FDEM Proof_FDEM5 Proof_FDEM6 Proof_Bessel Proof_Bessel2 Proof_HalfSpace Proof_HalfSpace2.
Import ListNotations.
Open Scope R_scope.

(** ** the slope of tp *)
Section Slope.
  Variable k : C.
  Hypothesis Kn : k <> RtoC 0.
  Notation ex r := (cexp (- (RtoC r * k))%C).
  Definition dtp (r : R) : C :=
    (- / (k * k) * (- (RtoC 4 * RtoC 6 * (/ RtoC r * / RtoC r * / RtoC r * / RtoC r * / RtoC r)) + RtoC 2 * (k * k * (/ RtoC r * / RtoC r * / RtoC r))
       + RtoC 2 * (ex r * (RtoC 12 * (/ RtoC r * / RtoC r * / RtoC r * / RtoC r * / RtoC r) + RtoC 12 * (k * (/ RtoC r * / RtoC r * / RtoC r * / RtoC r))
            + RtoC 5 * (k * k * (/ RtoC r * / RtoC r * / RtoC r)) + k * k * k * (/ RtoC r * / RtoC r)))))%C.
  Lemma C6 : RtoC 6 = (1 + 1 + 1 + 1 + 1 + 1)%C. Proof. rewrite <- !RtoC_plus. f_equal. ring. Qed.
  Lemma CD_tp r : 0 < r -> is_cderive (tp k) r (dtp r).
  Proof.
    intros P. unfold tp. assert (I : is_cderive (fun r => / RtoC r)%C r (- (/ RtoC r * / RtoC r))%C) by (apply CD_it; lra).
    assert (I2 := CD_mult _ _ _ _ _ I I). assert (I3 := CD_mult _ _ _ _ _ I2 I). assert (I4 := CD_mult _ _ _ _ _ I3 I). cbv beta in *.
    eapply is_cderive_eq.
    - apply CD_scal, CD_minus; [apply CD_minus; [apply CD_scal, I4|apply CD_scal, I2]|]. apply CD_scal, CD_mult; [apply CD_expline|].
      apply CD_plus; [apply CD_plus|]; [apply CD_scal, I4|apply CD_scal, CD_scal, I3|apply CD_scal, I2].
    - clear I I2 I3 I4. cbv beta. unfold dtp. rewrite C6. cnum. pose proof (rn r P) as N. generalize (ex r). generalize dependent (RtoC r). intros x N e. field. split; assumption.
  Qed.
  Lemma CD_dtp r : 0 < r -> exists d, is_cderive dtp r d.
  Proof.
    intros P. unfold dtp. assert (I : is_cderive (fun r => / RtoC r)%C r (- (/ RtoC r * / RtoC r))%C) by (apply CD_it; lra).
    assert (I2 := CD_mult _ _ _ _ _ I I). assert (I3 := CD_mult _ _ _ _ _ I2 I). assert (I4 := CD_mult _ _ _ _ _ I3 I). assert (I5 := CD_mult _ _ _ _ _ I4 I). cbv beta in *.
    eexists. apply CD_scal, CD_plus; [apply CD_plus; [apply CD_opp, CD_scal, I5|apply CD_scal, CD_scal, I3]|]. apply CD_scal, CD_mult; [apply CD_expline|].
    apply CD_plus; [apply CD_plus; [apply CD_plus|]|]; [apply CD_scal, I5|apply CD_scal, CD_scal, I4|apply CD_scal, CD_scal, I3|apply CD_scal, I2].
  Qed.
End Slope.

(** ** the three scalar functions of the code *)
Section Code.
  Variable k : C.
  Hypothesis Kn : k <> RtoC 0.
  Let kk : C := (Ci * k)%C.
  Lemma kk2 : (kk * kk)%C = (- (k * k))%C.
  Proof. unfold kk. transitivity ((Ci * Ci) * (k * k))%C; [ring|]. replace (Ci * Ci)%C with (- RtoC 1)%C by (apply C_eq; cbn; ring). ring. Qed.
  Lemma nkk : (- (k * k))%C <> RtoC 0.
  Proof. intros Z. apply (Cmult_neq_0 _ _ Kn Kn). transitivity (- - (k * k))%C; [ring|]. rewrite Z. ring. Qed.
  Lemma ex_kk r : cexp (- (RtoC r * kk))%C = cexp (- Ci * k * RtoC r)%C.
  Proof. unfold kk. f_equal. ring. Qed.
  Lemma phi_tp r : 0 < r -> mh_phi k r = (tp kk r + / (RtoC r * RtoC r))%C.
  Proof.
    intros P. unfold mh_phi, tp. rewrite ex_kk, kk2, C6. cnum. unfold kk. pose proof (rn r P) as N. generalize (cexp (- Ci * k * RtoC r)%C). generalize dependent (RtoC r). intros x N e. pose proof nkk as Nk. field. repeat split; assumption.
  Qed.
  Lemma dphi_dtp r : 0 < r -> mh_dphi_dr k r = (dtp kk r - RtoC 2 * / (RtoC r * RtoC r * RtoC r))%C.
  Proof.
    intros P. unfold mh_dphi_dr, dtp. rewrite ex_kk. replace (kk * kk * kk)%C with (- (k * k) * kk)%C by (rewrite kk2; reflexivity). rewrite kk2, C6. cnum. unfold kk. pose proof (rn r P) as N.
    generalize (cexp (- Ci * k * RtoC r)%C). generalize dependent (RtoC r). intros x N e. pose proof nkk as Nk. field. repeat split; assumption.
  Qed.
  Lemma hz_tp r : 0 < r -> mh_hz k r = (- (dtp kk r + tp kk r * / RtoC r) - / (RtoC r * RtoC r * RtoC r))%C.
  Proof.
    intros P. unfold mh_hz, dtp, tp. rewrite ex_kk. replace (kk * kk * kk)%C with (- (k * k) * kk)%C by (rewrite kk2; reflexivity). rewrite kk2, C6. cnum. unfold kk. pose proof (rn r P) as N.
    generalize (cexp (- Ci * k * RtoC r)%C). generalize dependent (RtoC r). intros x N e. pose proof nkk as Nk. field. repeat split; assumption.
  Qed.
End Code.

(** ** the wavenumber *)
Lemma mh_k_sq mu_0 s : (mh_k mu_0 s * mh_k mu_0 s)%C = (- Ci * RtoC (2 * PI * fd_freq (mh_med s)) * RtoC mu_0 * fd_sigma_hat (mh_med s))%C.
Proof. unfold mh_k. apply csqrt_sq. Qed.
Lemma mh_k_im mu_0 s : 0 < mu_0 -> 0 < fd_freq (mh_med s) -> 0 < fd_sigma (mh_med s) -> 0 < Re (Ci * mh_k mu_0 s)%C.
Proof.
  intros M F S. pose proof PI_RGT_0 as Pi.
  pose proof (mh_k_sq mu_0 s) as E. set (z := (- Ci * RtoC (2 * PI * fd_freq (mh_med s)) * RtoC mu_0 * fd_sigma_hat (mh_med s))%C) in *.
  assert (Z : Im z < 0).
  { assert (X : 0 < 2 * PI * fd_freq (mh_med s) * mu_0 * fd_sigma (mh_med s)) by (apply Rmult_lt_0_compat; [apply Rmult_lt_0_compat; [apply Rmult_lt_0_compat|]|]; lra).
    replace (Im z) with (- (2 * PI * fd_freq (mh_med s) * mu_0 * fd_sigma (mh_med s))) by (unfold z, fd_sigma_hat, sigma_hat; destruct (is_True (fd_qs (mh_med s))); cbn; ring). lra. }
  assert (R0 : 0 <= Re (mh_k mu_0 s)) by (unfold mh_k; apply csqrt_re_nonneg).
  assert (I : Im z = 2 * (Re (mh_k mu_0 s) * Im (mh_k mu_0 s))) by (rewrite <- E; cbn; ring).
  replace (Re (Ci * mh_k mu_0 s)%C) with (- Im (mh_k mu_0 s)) by (cbn; ring). nra.
Qed.
Lemma refl_layers mu_0 s la : 0 < mu_0 -> 0 < fd_freq (mh_med s) -> 0 < fd_sigma (mh_med s) -> 0 < la ->
  refl (Ci * mh_k mu_0 s)%C la = py_rTE mu_0 (fd_freq (mh_med s)) la [fd_sigma_hat (mh_med s)] [RtoC mu_0] [].
Proof.
  intros M F S L. pose proof PI_RGT_0 as Pi. pose proof (mh_k_im mu_0 s M F S) as K. set (kk := (Ci * mh_k mu_0 s)%C) in *.
  assert (E : (kk * kk)%C = (Ci * RtoC (2 * PI * fd_freq (mh_med s)) * RtoC mu_0 * fd_sigma_hat (mh_med s))%C) by (unfold kk; rewrite kk2, mh_k_sq; ring).
  unfold py_rTE, py_Y, py_u, py_k2, py_omega, map2. cbn [length Nat.add Nat.sub py_down combine map fst snd last].
  replace (RtoC (la ^ 2) - - Ci * RtoC (2 * PI * fd_freq (mh_med s)) * RtoC mu_0 * fd_sigma_hat (mh_med s))%C with (RtoC (la ^ 2) + kk * kk)%C by (rewrite E; ring).
  fold (uu kk la). pose proof (uu_sq kk la) as Q. rewrite RtoC_mult in Q. pose proof (uu_sum kk K la L) as U. pose proof (k_nz kk K) as Kn.
  assert (N : (uu kk la + RtoC la)%C <> RtoC 0). { intros Z. rewrite Z, Cmod_0 in U. lra. }
  assert (W : (Ci * RtoC (2 * PI * fd_freq (mh_med s)) * RtoC mu_0)%C <> RtoC 0).
  { apply Cmult_neq_0; [apply Cmult_neq_0|apply RtoC_neq; lra]; [intros Z; apply (f_equal Im) in Z; cbn in Z; lra|]. apply RtoC_neq. assert (0 < 2 * PI * fd_freq (mh_med s)) by (apply Rmult_lt_0_compat; lra). lra. }
  transitivity ((RtoC la - uu kk la) / (RtoC la + uu kk la))%C.
  - assert (N' : (RtoC la + uu kk la)%C <> RtoC 0) by (now rewrite Cplus_comm).
    pose proof (ww_refl kk K la) as R1. pose proof (ww_alt kk K la L) as R2. replace (refl kk la) with (- ww kk la)%C by (rewrite R1; ring).
    rewrite R2. transitivity (- (kk * kk) / ((uu kk la + RtoC la) * (uu kk la + RtoC la)))%C; [field; exact N|].
    replace (kk * kk)%C with (uu kk la * uu kk la - RtoC la * RtoC la)%C by (rewrite Q; ring). field. repeat split; assumption.
  - generalize dependent (Ci * RtoC (2 * PI * fd_freq (mh_med s)) * RtoC mu_0)%C. intros w _ W. generalize dependent (uu kk la). intros u _ _ N.
    assert (N' : (RtoC la + u)%C <> RtoC 0) by (now rewrite Cplus_comm). field. repeat split; try assumption.
Qed.

(** ** the components *)
Section Components.
  Variables (iv kv : nat -> C -> C) (mu_0 : R) (s : mhalf) (c n : R).
  Hypotheses (M : 0 < mu_0) (F : 0 < fd_freq (mh_med s)) (S : 0 < fd_sigma (mh_med s)) (U : c * c + n * n = 1).
  Let k : C := mh_k mu_0 s.
  Let kk : C := (Ci * k)%C.
  Let Kn : k <> RtoC 0 := mh_k_neq mu_0 s M F S.
  Let K : 0 < Re kk := mh_k_im mu_0 s M F S.
  Let H (r : R) : cvec := mh_H iv kv mu_0 s true (at_distance (mh_loc s) c n r).
  Let g (r : R) : C := (k * k / RtoC r * (iv 1%nat (kk * RtoC (r / 2)) * kv 1%nat (kk * RtoC (r / 2)) - iv 2%nat (kk * RtoC (r / 2)) * kv 2%nat (kk * RtoC (r / 2))))%C.
  Let m : C := RtoC (mh_moment s / (4 * PI)).
  Let o := mh_orient s.
  Lemma parts_of r : 0 < r ->
    cvz (H r) = (m * (RtoC (vz o) * - (dtp kk r + tp kk r * / RtoC r) - RtoC (vx o * c + vy o * n) * g r))%C /\
    transverse (H r) c n = (m * (RtoC (vy o * c - vx o * n) * - (tp kk r * / RtoC r)))%C /\
    radial (H r) c n = (m * (RtoC (vx o * c + vy o * n) * - dtp kk r + RtoC (vz o) * g r))%C.
  Proof.
    intros P. pose proof (rn r P) as N.
    assert (X : vx (at_distance (mh_loc s) c n r) - vx (mh_loc s) = r * c) by (cbn; ring).
    assert (Y : vy (at_distance (mh_loc s) c n r) - vy (mh_loc s) = r * n) by (cbn; ring).
    assert (O : off s (at_distance (mh_loc s) c n r)).
    { unfold off. destruct (Req_dec c 0) as [Zc|Nc]; [right|left]; intros Z.
      - rewrite Z in Y. assert (r * n = 0) by lra. assert (n <> 0) by nra. nra.
      - rewrite Z in X. assert (r * c = 0) by lra. nra. }
    assert (Rr : sqrt ((r * c) ^ 2 + (r * n) ^ 2) = r).
    { replace ((r * c) ^ 2 + (r * n) ^ 2) with (r ^ 2 * (c * c + n * n)) by ring. rewrite U, Rmult_1_r. apply sqrt_pow2. lra. }
    unfold H, transverse, radial. rewrite (mh_form _ _ _ _ _ _ O), X, Y. unfold mh_vec, mh_prim, mh_g. cbv zeta. rewrite Rr. fold k m o.
    rewrite (phi_tp k Kn r P), (dphi_dtp k Kn r P), (hz_tp k Kn r P). fold kk.
    replace (kk * RtoC r / 2)%C with (kk * RtoC (r / 2))%C by (rewrite RtoC_div by lra; cnum; unfold Cdiv; ring).
    unfold g. set (IK := (iv 1%nat (kk * RtoC (r / 2)) * kv 1%nat (kk * RtoC (r / 2)) - iv 2%nat (kk * RtoC (r / 2)) * kv 2%nat (kk * RtoC (r / 2)))%C).
    generalize (tp kk r) (dtp kk r) IK m (vx o) (vy o) (vz o). clear IK. intros t d IK mm ox oy oz. generalize k. intros q. clear - N P U.
    assert (Uc : (RtoC c * RtoC c)%C = (1 - RtoC n * RtoC n)%C) by (rewrite <- !RtoC_mult, <- RtoC_minus; f_equal; lra).
    cbn [cvx cvy cvz cvscal cvsub cvof vx vy vz]. push. cnum.
    split; [|split].
    - field. exact N.
    - field. exact N.
    - field [Uc]. exact N.
  Qed.

  (** *** what the theorems say *)
  Lemma vertical_lemma la : 0 < la -> vx o * c + vy o * n = 0 ->
    is_cint (fun r => cvz (H r) * RtoC (r * bessel0 (la * r)))%C (RtoC (mh_moment s / (4 * PI) * vz o * la) * py_rTE mu_0 (fd_freq (mh_med s)) la [fd_sigma_hat (mh_med s)] [RtoC mu_0] [])%C.
  Proof.
    intros L Z. rewrite <- (refl_layers mu_0 s la M F S L). fold k kk.
    replace (RtoC (mh_moment s / (4 * PI) * vz o * la) * refl kk la)%C with (RtoC (mh_moment s / (4 * PI) * vz o) * (RtoC la * refl kk la))%C by (rewrite (RtoC_mult _ la); ring).
    eapply cint_ext; [|apply cint_scal, (int_dtp kk K la L (dtp kk)); [intros r P; apply CD_tp; [exact (k_nz kk K)|exact P]|intros r P; apply CD_dtp, P]].
    intros r P. cbv beta. destruct (parts_of r P) as (A & _ & _). rewrite A, Z. unfold m. rewrite !RtoC_mult. ring.
  Qed.
  Lemma transverse_lemma la : 0 < la ->
    is_cint (fun r => transverse (H r) c n * RtoC (r ^ 2 * bessel1 (la * r)))%C
      (RtoC (mh_moment s / (4 * PI) * (vy o * c - vx o * n)) * py_rTE mu_0 (fd_freq (mh_med s)) la [fd_sigma_hat (mh_med s)] [RtoC mu_0] [])%C.
  Proof.
    intros L. rewrite <- (refl_layers mu_0 s la M F S L). fold k kk.
    eapply cint_ext; [|apply cint_scal, (int_tp kk K la L)].
    intros r P. cbv beta. destruct (parts_of r P) as (_ & A & _). rewrite A. unfold m. pose proof (rn r P). rewrite (RtoC_mult (r ^ 2)), (RtoC_mult (mh_moment s / (4 * PI))). replace (RtoC (r ^ 2)) with (RtoC r * RtoC r)%C by (rewrite <- RtoC_mult; f_equal; ring). field. assumption.
  Qed.
  Lemma g_lemma r : bessel_products iv kv -> 0 < r ->
    is_cint (fun la => py_rTE mu_0 (fd_freq (mh_med s)) la [fd_sigma_hat (mh_med s)] [RtoC mu_0] [] * RtoC (la ^ 2 * bessel1 (la * r)))%C (g r).
  Proof.
    intros B P. assert (Z : 0 < Re (kk * RtoC (r / 2))%C).
    { replace (Re (kk * RtoC (r / 2))%C) with (Re kk * (r / 2)) by (cbn; ring). apply Rmult_lt_0_compat; [exact K|lra]. }
    assert (Pc : 0 < r / 2) by lra. pose proof (k_nz kk K) as KKn. pose proof (rn (r / 2) Pc) as Nc.
    assert (Sc : forall la, csqrt (RtoC ((r / 2 * la) ^ 2) + kk * RtoC (r / 2) * (kk * RtoC (r / 2)))%C = (RtoC (r / 2) * uu kk la)%C).
    { intros la. rewrite <- (uu_scale kk K (r / 2) la Pc). unfold uu. f_equal. f_equal. ring. }
    pose proof (cint_rescale _ _ (r / 2) Pc (B 1%nat _ (or_introl eq_refl) Z)) as B1. pose proof (cint_rescale _ _ (r / 2) Pc (B 2%nat _ (or_intror eq_refl) Z)) as B2. cbv zeta beta in B1, B2.
    pose proof (radial_parts kk K r P (iv 1%nat (kk * RtoC (r / 2)) * kv 1%nat (kk * RtoC (r / 2)))%C (iv 2%nat (kk * RtoC (r / 2)) * kv 2%nat (kk * RtoC (r / 2)))%C) as Q.
    replace (g r) with (- (kk * kk / RtoC r * (iv 1%nat (kk * RtoC (r / 2)) * kv 1%nat (kk * RtoC (r / 2)) - iv 2%nat (kk * RtoC (r / 2)) * kv 2%nat (kk * RtoC (r / 2)))))%C.
    2:{ unfold g. unfold kk at 1 2. rewrite kk2. unfold Cdiv. ring. }
    eapply cint_ext; [|apply Q].
    - intros la L. cbv beta. rewrite <- (refl_layers mu_0 s la M F S L). fold k kk. rewrite RtoC_mult. ring.
    - eapply cint_ext; [|exact B1]. intros la L. cbv beta. rewrite Sc, cpow2. unfold ww. replace (2 * (r / 2 * la)) with (la * r) by field. rewrite RtoC_mult. pose proof (uu_nz kk K la) as Nu.
      clear - Nu Nc KKn. generalize dependent (RtoC (r / 2)). generalize dependent (uu kk la). intros u Nu c0 Nc. field. repeat split; assumption.
    - eapply cint_ext; [|exact B2]. intros la L. cbv beta. rewrite Sc, cpow4. unfold ww. replace (2 * (r / 2 * la)) with (la * r) by field. rewrite RtoC_mult. pose proof (uu_nz kk K la) as Nu.
      clear - Nu Nc KKn. generalize dependent (RtoC (r / 2)). generalize dependent (uu kk la). intros u Nu c0 Nc. field. repeat split; assumption.
  Qed.
End Components.
