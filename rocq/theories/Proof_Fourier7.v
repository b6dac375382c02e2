(** Plane wave, circular loop and half-space dipole. *)
From Coq Require Import Reals Lra Lia List.
From Coquelicot Require Import Coquelicot.
From Verif Require Import Vec3 Calculus Deriv Integral Cplx CplxTaylor SpecFun Numpy Model_Spatial Model_Static Model_TDEM Model_FDEM Spec_TDEM Proof_Static2 Proof_FDEM Proof_TDEM Proof_TDEM3 Cerf Spec_Fourier
  Proof_Fourier Proof_Fourier2 Proof_Fourier3 Proof_Fourier4 Proof_Fourier5 Proof_Fourier6.
Import ListNotations.
Open Scope R_scope.

Lemma fourier_kk0 a f c h : 0 <= a -> 0 < f -> (forall t, 0 < t -> h t = c * (kk 0 t * gg a t)) ->
  is_fourier h f (RtoC c * (wexp (- (a * bf f)) / ww (bf f)))%C.
Proof.
  intros Ha Hf H. pose proof (bf_pos f Hf) as Hb. pose proof (bf_sq f Hf) as Hb2. set (b := bf f) in *.
  unfold is_fourier. eapply cint_ext; [|exact (cint_scal (RtoC c) _ _ (int1 a b Ha Hb))]. intros t Ht. cbv beta. rewrite (H t Ht).
  replace (2 * PI * f * t) with (2 * b ^ 2 * t) by (rewrite Hb2; ring). fold (ee b t). change (Gk a b t) with (RtoC (gg a t) * ee b t)%C.
  rewrite !RtoC_mult. ring.
Qed.
Lemma fourier_scal m h f H : is_fourier h f H -> is_fourier (fun t => m * h t) f (RtoC m * H)%C.
Proof.
  intro F. unfold is_fourier in *. eapply cint_ext; [|exact (cint_scal (RtoC m) _ _ F)]. intros t Ht. cbv beta. rewrite (RtoC_mult m). ring.
Qed.
Lemma vfourier_scal m (h : R -> vec3) f H : is_vfourier h f H -> is_vfourier (fun t => vscal m (h t)) f (cvscal (RtoC m) H).
Proof. intros (A & B & D). split; [|split]; cbn [vscal vx vy vz cvscal cvx cvy cvz]; apply fourier_scal; assumption. Qed.

Section PlaneWave.
  Variables (s : tpwave) (p : vec3) (f eps : R).
  Let sg := td_sigma (tp_med s).
  Let mu := td_mu (tp_med s).
  Hypotheses (Hf : 0 < f) (Hs : 0 < sg) (Hm : 0 < mu).
  Let d := PW (FD f sg mu eps PyTrue) (tp_amp s) (tp_orient s).
  Let a := sqrt (mu * sg) * - vz p.
  Lemma root_ms : 0 < sqrt (mu * sg). Proof. apply sqrt_lt_R0. nra. Qed.
  Lemma a_sq : a ^ 2 = mu * sg * vz p ^ 2.
  Proof. unfold a. replace ((sqrt (mu * sg) * - vz p) ^ 2) with (sqrt (mu * sg) * sqrt (mu * sg) * vz p ^ 2) by ring. rewrite sqrt_sqrt by nra. reflexivity. Qed.
  Lemma ikz : (Ci * wavenumber f sg mu eps PyTrue * RtoC (vz p))%C = (- (RtoC a * ww (bf f)))%C.
  Proof. rewrite ik_qs by assumption. unfold a. rewrite RtoC_mult, RtoC_opp. ring. Qed.

  Lemma pw_E_fourier : vz p < 0 -> is_vfourier (fun t => tp_E (tp_at s t) p) f (pw_E d p).
  Proof.
    intro Hz. pose proof root_ms as Hr. assert (Ha : 0 < a) by (unfold a; nra).
    unfold pw_E, d, fd_k. cbn [pw_med pw_amp pw_orient fd_freq fd_sigma fd_mu fd_eps fd_qs]. rewrite ikz, wexp_ww.
    assert (K : forall c, is_fourier (fun t => (- tp_amp s * sqrt (mu * sg) * vz p * exp (- (mu * sg * vz p ^ 2) / (4 * t))) / (2 * sqrt PI * (t * sqrt t)) * c) f (wexp (- (a * bf f)) * (RtoC (tp_amp s) * RtoC c))%C).
    { intro c. assert (S : is_fourier (fun t => (- tp_amp s * sqrt (mu * sg) * vz p * exp (- (mu * sg * vz p ^ 2) / (4 * t))) / (2 * sqrt PI * (t * sqrt t)) * c) f (frq a (ww (bf f)) (wexp (- (a * bf f))) 0 0 (tp_amp s * a / 2 * c) 0 0)).
      { apply tim_fourier; [exact Ha|exact Hf|]. intros t Ht. unfold tim, gg. rewrite <- a_sq. replace (- a ^ 2 / (4 * t)) with (- (a ^ 2 / (4 * t))) by (field; lra).
        generalize (exp (- (a ^ 2 / (4 * t)))). intro X. unfold a, kk. cbn [pow]. pose proof (sqrt_lt_R0 t Ht). pose proof sqrt_PI_pos. field. lra. }
      rewrite frq_simple in S by exact Ha. rewrite (RtoC_s (2 * (tp_amp s * a / 2 * c) / a) (tp_amp s * c)) in S by (field; lra).
      rewrite (RtoC_0s (4 * 0 / a ^ 3)) in S by (field; lra). rewrite (RtoC_0s (8 * 0 / a ^ 5)) in S by (field; lra).
      match type of S with is_fourier _ _ ?L => match goal with |- is_fourier _ _ ?M => replace M with L; [exact S|] end end. rewrite RtoC_mult. ring. }
    unfold tp_E, tp_at. split; [|split]; cbn [cvof cvx cvy cvz cvscal tp_med tp_amp tp_orient at_time td_time td_sigma td_mu vscal vx vy vz]; fold sg mu;
      [apply (K (vx (tp_orient s)))|apply (K (vy (tp_orient s)))|apply (K (vz (tp_orient s)))].
  Qed.
  Lemma pw_J_fourier : vz p < 0 -> is_vfourier (fun t => tp_J (tp_at s t) p) f (pw_J d p).
  Proof. intro Hz. exact (vfourier_scal sg _ _ _ (pw_E_fourier Hz)). Qed.

  Lemma ik_over_w : (wavenumber f sg mu eps PyTrue / RtoC (2 * PI * f))%C = (RtoC (sqrt (mu * sg)) / ww (bf f))%C.
  Proof.
    pose proof (bf_pos f Hf) as Hb. pose proof (ww_neq (bf f) ltac:(lra)) as Nw. pose proof PI_RGT_0.
    assert (E : (ww (bf f) * ww (bf f))%C = (Ci * RtoC (2 * PI * f))%C) by (rewrite ww_sq, bf_sq by exact Hf; do 2 f_equal; ring).
    assert (NC : Ci <> RtoC 0) by (intro Q; apply (f_equal snd) in Q; cbn in Q; lra). assert (N : RtoC (2 * PI * f) <> RtoC 0) by (apply RtoC_neq; nra).
    replace (wavenumber f sg mu eps PyTrue / RtoC (2 * PI * f))%C with (Ci * wavenumber f sg mu eps PyTrue / (Ci * RtoC (2 * PI * f)))%C by (field; split; assumption).
    rewrite ik_qs, <- E by assumption. field. exact Nw.
  Qed.
  Lemma pw_B_fourier : vz p <= 0 -> is_vfourier (fun t => tp_B (tp_at s t) p) f (pw_B d p).
  Proof.
    intro Hz. pose proof root_ms as Hr. assert (Ha : 0 <= a) by (unfold a; nra). pose proof PI_RGT_0.
    unfold pw_B, d, fd_k, fd_omega, omega. cbn [pw_med pw_amp pw_orient fd_freq fd_sigma fd_mu fd_eps fd_qs]. rewrite Cmult_assoc, ikz, wexp_ww.
    replace (- RtoC (tp_amp s) * wavenumber f sg mu eps PyTrue / RtoC (2 * PI * f))%C with (- RtoC (tp_amp s) * (wavenumber f sg mu eps PyTrue / RtoC (2 * PI * f)))%C by (unfold Cdiv; ring).
    rewrite ik_over_w.
    assert (K : forall c, is_fourier (fun t => - tp_amp s * sqrt (sg * mu / (PI * t)) * exp (- mu * sg * vz p ^ 2 / (4 * t)) * c) f (- RtoC (tp_amp s) * (RtoC (sqrt (mu * sg)) / ww (bf f)) * wexp (- (a * bf f)) * RtoC c)%C).
    { intro c. replace (- RtoC (tp_amp s) * (RtoC (sqrt (mu * sg)) / ww (bf f)) * wexp (- (a * bf f)) * RtoC c)%C with (RtoC (- tp_amp s * sqrt (mu * sg) * c) * (wexp (- (a * bf f)) / ww (bf f)))%C by (rewrite !RtoC_mult, RtoC_opp; unfold Cdiv; ring).
      apply fourier_kk0; [exact Ha|exact Hf|]. intros t Ht. unfold gg. rewrite a_sq. replace (- mu * sg * vz p ^ 2 / (4 * t)) with (- (mu * sg * vz p ^ 2 / (4 * t))) by (field; lra).
      generalize (exp (- (mu * sg * vz p ^ 2 / (4 * t)))). intro X. pose proof (sqrt_lt_R0 t Ht). pose proof sqrt_PI_pos.
      replace (sqrt (sg * mu / (PI * t))) with (sqrt (mu * sg) * kk 0 t); [ring|]. rewrite sqrt_div by nra. rewrite (sqrt_mult PI t) by lra. rewrite (Rmult_comm sg mu). unfold kk. cbn [pow]. field. lra. }
    unfold tp_B, tp_at. split; [|split]; cbn [cvof cvx cvy cvz cvscal tp_med tp_amp tp_orient at_time td_time td_sigma td_mu vscal vcross vx vy vz]; fold sg mu; apply K.
  Qed.
  Lemma pw_H_fourier : vz p <= 0 -> is_vfourier (fun t => tp_H (tp_at s t) p) f (pw_H d p).
  Proof.
    intro Hz. pose proof (vfourier_scal (/ mu) _ _ _ (pw_B_fourier Hz)) as S. unfold pw_H, d. cbn [pw_med fd_mu]. rewrite <- RtoC_inv by lra.
    destruct S as (S1 & S2 & S3). unfold is_vfourier, is_fourier in *. split; [|split]; [eapply cint_ext; [|exact S1]|eapply cint_ext; [|exact S2]|eapply cint_ext; [|exact S3]];
      intros t Ht; cbv beta; do 2 f_equal; unfold tp_H, vdiv; cbn [tp_at tp_med at_time td_mu vscal vx vy vz]; fold mu; field; lra.
  Qed.
End PlaneWave.

(** ** circular loop, at its centre *)
Section Loop.
  Variables (f sg mu r I n : R).
  Hypotheses (Hf : 0 < f) (Hs : 0 < sg) (Hm : 0 < mu) (Hr : 0 < r).
  Let a := sqrt (mu * sg) * r.
  Let w := ww (bf f).
  Let e := wexp (- (a * bf f)).
  Lemma la : 0 < a. Proof. unfold a. apply Rmult_lt_0_compat; [apply sqrt_lt_R0; nra|exact Hr]. Qed.
  Lemma la2 : a ^ 2 = mu * sg * r ^ 2.
  Proof. unfold a. replace ((sqrt (mu * sg) * r) ^ 2) with (sqrt (mu * sg) * sqrt (mu * sg) * r ^ 2) by ring. rewrite sqrt_sqrt by nra. reflexivity. Qed.
  Lemma kloop : (Ci * csqrt (- Ci * RtoC (2 * PI * f) * RtoC mu * RtoC sg))%C = (RtoC (sqrt (mu * sg)) * w)%C.
  Proof. apply ik_root; [exact Hf|nra|apply (wavenumber_branch f sg mu 0 PyTrue); assumption|]. rewrite csqrt_sq. rewrite !RtoC_mult. ring. Qed.

  Lemma loop_dbz_fourier : is_fourier (fun t => - tloop_dbz t sg mu r I n) f (loop_bz f sg mu r I n false).
  Proof.
    pose proof la as Ha. pose proof (ww_neq (bf f) (Rgt_not_eq _ _ (bf_pos f Hf))) as Nw. fold w in Nw.
    set (c := n * I / (sg * r ^ 3)).
    assert (S : is_fourier (fun t => - tloop_dbz t sg mu r I n) f (frq a w e (3 * c) (- (3 * a * c)) (- (a ^ 3 / 2 * c)) 0 0)).
    { apply tim_fourier; [exact Ha|exact Hf|]. intros t Ht. unfold tloop_dbz. rewrite ef_theta, gg_theta by assumption. fold a.
      replace (2 * (theta t sg mu * r) / sqrt PI * (3 + 2 * (theta t sg mu * r) ^ 2)) with (2 * (theta t sg mu * r / sqrt PI) * (3 + 2 * (theta t sg mu * r) ^ 2)) by (unfold Rdiv; ring).
      rewrite theta_half by assumption. fold a. rewrite x_kk, half_root by exact Ht. unfold tim. rewrite (kk_S 0) by exact Ht. unfold c. field. repeat split; lra. }
    match type of S with is_fourier _ _ ?L => match goal with |- is_fourier _ _ ?M => replace M with L; [exact S|] end end.
    unfold loop_bz, loop_hz. set (k := csqrt _). pose proof kloop as K. fold k in K.
    assert (Kr : (Ci * k * RtoC r)%C = (RtoC a * w)%C) by (rewrite K; unfold a; rewrite RtoC_mult; ring).
    assert (Nm : RtoC mu <> RtoC 0) by (apply RtoC_neq; lra). assert (Nr : RtoC r <> RtoC 0) by (apply RtoC_neq; lra). assert (Ns : RtoC sg <> RtoC 0) by (apply RtoC_neq; lra). assert (Na : RtoC a <> RtoC 0) by (apply RtoC_neq; lra).
    assert (Kw : (k * k)%C = (- (RtoC (mu * sg) * (w * w)))%C).
    { replace (k * k)%C with (- (Ci * k * (Ci * k)))%C; [rewrite K; f_equal; replace (mu * sg) with (sqrt (mu * sg) * sqrt (mu * sg)) at 3 by (apply sqrt_sqrt; nra); rewrite RtoC_mult; ring|].
      replace (Ci * k * (Ci * k))%C with (Ci * Ci * (k * k))%C by ring. replace (Ci * Ci)%C with (- RtoC 1)%C by (apply C_eq; cbn; ring). ring. }
    cbn [cpow]. replace (RtoC 3 * Ci * k * RtoC r)%C with (RtoC 3 * (RtoC a * w))%C by (rewrite <- Kr; ring).
    replace (- Ci * k * RtoC r)%C with (- (RtoC a * w))%C by (rewrite <- Kr; ring). rewrite (wexp_ww a (bf f) : cexp (- (RtoC a * w))%C = _). fold e.
    replace (k * (k * RtoC 1))%C with (k * k)%C by ring. rewrite Kw.
    replace (- (RtoC (mu * sg) * (w * w)) * (RtoC r * (RtoC r * RtoC 1)))%C with (- (RtoC (a ^ 2) * (w * w)))%C by (rewrite la2; replace (mu * sg * r ^ 2) with (mu * sg * r * r) by ring; rewrite !RtoC_mult; ring).
    unfold frq. rewrite !(RtoC_mult mu sg). replace (a ^ 2) with (a * a) by ring.
    assert (C3 : RtoC (3 * c) = (RtoC 3 * RtoC c)%C) by apply RtoC_mult. assert (C4 : RtoC (- (3 * a * c)) = (- (RtoC 3 * RtoC a * RtoC c))%C) by (rewrite RtoC_opp, !RtoC_mult; reflexivity).
    assert (C5 : (RtoC (- (a ^ 3 / 2 * c)) * (RtoC (2 / a) * e))%C = (- (RtoC a * RtoC a * RtoC c) * e)%C).
    { rewrite Cmult_assoc, <- RtoC_mult. rewrite (RtoC_s (- (a ^ 3 / 2 * c) * (2 / a)) (- (a * a * c))) by (field; lra). rewrite RtoC_opp, !RtoC_mult. reflexivity. }
    rewrite C3, C4, C5. assert (Cc : RtoC c = (RtoC n * RtoC I / (RtoC sg * (RtoC r * (RtoC r * RtoC r))))%C).
    { unfold c. rewrite RtoC_div by (apply Rmult_integral_contrapositive_currified; [lra|apply pow_nonzero; lra]). rewrite !RtoC_mult. replace (r ^ 3) with (r * (r * r)) by ring. rewrite !RtoC_mult. reflexivity. }
    rewrite Cc, (RtoC_mult a a). generalize (RtoC 3). intro t3. field. repeat split; try assumption.
    intro Q. apply (Cmult_neq_0 _ _ (Cmult_neq_0 _ _ Nm Ns) (Cmult_neq_0 _ _ Nw Nw)). transitivity (- - (RtoC mu * RtoC sg * (w * w)))%C; [ring|rewrite Q; ring].
  Qed.
  Lemma loop_bz_step : is_step_off (fun t => tloop_bz t sg mu r I n) f (loop_bz f sg mu r I n false).
  Proof. apply known_step with (fun t => tloop_dbz t sg mu r I n); [|exact loop_dbz_fourier]. intros t Ht. now apply tloop_bz_time. Qed.
  Lemma loop_hz_step : is_step_off (fun t => tloop_hz t sg mu r I n) f (loop_hz f sg mu r I n false).
  Proof.
    apply known_step with (fun t => tloop_dhz t sg mu r I n); [intros t Ht; now apply tloop_hz_time|].
    pose proof (fourier_scal (/ mu) _ _ _ loop_dbz_fourier) as S. unfold loop_bz in S. rewrite Cmult_assoc, <- RtoC_mult, Rinv_l, Cmult_1_l in S by lra.
    unfold is_fourier in *. eapply cint_ext; [|exact S]. intros t Ht. cbv beta. do 2 f_equal. unfold tloop_dhz. field. lra.
  Qed.
End Loop.

(** ** vertical dipole on a half-space, vertical component *)
Section VMD.
  Variables (s : tvmd) (f eps x y z : R) (iv kv : nat -> C -> C).
  Let sg := td_sigma (tv_med s).
  Let mu := td_mu (tv_med s).
  Hypotheses (Hf : 0 < f) (Hs : 0 < sg) (Hm : 0 < mu) (Hr : x <> vx (tv_loc s) \/ y <> vy (tv_loc s)).
  Let X := x - vx (tv_loc s).
  Let Y := y - vy (tv_loc s).
  Let r := sqrt (X ^ 2 + Y ^ 2).
  Let a := sqrt (mu * sg) * r.
  Let w := ww (bf f).
  Let e := wexp (- (a * bf f)).
  Let m := tv_moment s.
  Let d := MH (FD f sg mu eps PyTrue) m (V3 0 0 1) (tv_loc s).
  Lemma off : X <> 0 \/ Y <> 0. Proof. unfold X, Y. destruct Hr; [left|right]; lra. Qed.
  Lemma vr : 0 < r. Proof. apply sqrt_lt_R0. destruct off; nra. Qed.

  Lemma vmd_dz_fourier : is_fourier (fun t => - vz (vmd_dH t sg mu m X Y)) f (cvz (mh_H iv kv mu d false (V3 x y z))).
  Proof.
    pose proof vr as Hr'. pose proof (la sg mu r Hs Hm Hr') as Ha. fold a in Ha. pose proof (la2 sg mu r Hs Hm) as Ha2. fold a in Ha2.
    pose proof (ww_neq (bf f) (Rgt_not_eq _ _ (bf_pos f Hf))) as Nw. fold w in Nw. pose proof PI_RGT_0.
    set (c := - (m / (4 * PI) / r ^ 3)).
    assert (S : is_fourier (fun t => - vz (vmd_dH t sg mu m X Y)) f (frq a w e (18 / a ^ 2 * c) (- (18 / a * c)) (- (3 * a * c)) (- (a ^ 3 / 2 * c)) 0)).
    { apply tim_fourier; [exact Ha|exact Hf|]. intros t Ht. unfold vmd_dH. cbn [vscal vz]. fold r. rewrite ef_theta, gg_theta by assumption. fold a.
      rewrite theta_half by assumption. fold a. unfold tim. generalize (ef a t) (gg a t). intros E G. unfold c, kk. cbn [pow].
      pose proof (sqrt_lt_R0 t Ht) as Hq. assert (Hss : sqrt t * sqrt t = t) by (apply sqrt_sqrt; lra). pose proof sqrt_PI_pos.
      generalize dependent (sqrt t). intros q Hq Hss. subst t. field. repeat split; lra. }
    match type of S with is_fourier _ _ ?L => match goal with |- is_fourier _ _ ?M => replace M with L; [exact S|] end end.
    unfold mh_H, d, mh_k, fd_sigma_hat, sigma_hat. cbn [mh_med mh_moment mh_orient mh_loc fd_freq fd_sigma fd_mu fd_eps fd_qs is_True vx vy vz].
    fold X Y r. unfold Reqb. destruct (Req_EM_T 1 0) as [Q|_]; [exfalso; lra|]. destruct (Req_EM_T 0 0) as [_|Q]; [|exfalso; lra].
    cbn [cvscal cvz cvzero]. unfold mh_hz. set (k := csqrt _). pose proof (kloop f sg mu Hf Hs Hm) as K. fold w in K. fold k in K.
    assert (Kr : (Ci * k * RtoC r)%C = (RtoC a * w)%C) by (rewrite K; unfold a; rewrite RtoC_mult; ring).
    assert (Kw : (k * k)%C = (- (RtoC (mu * sg) * (w * w)))%C).
    { replace (k * k)%C with (- (Ci * k * (Ci * k)))%C; [rewrite K; f_equal; replace (mu * sg) with (sqrt (mu * sg) * sqrt (mu * sg)) at 3 by (apply sqrt_sqrt; nra); rewrite RtoC_mult; ring|].
      replace (Ci * k * (Ci * k))%C with (Ci * Ci * (k * k))%C by ring. replace (Ci * Ci)%C with (- RtoC 1)%C by (apply C_eq; cbn; ring). ring. }
    assert (Kr2 : (k * k * (RtoC r * RtoC r))%C = (- (RtoC a * w * (RtoC a * w)))%C).
    { rewrite Kw. replace (RtoC a * w * (RtoC a * w))%C with (RtoC (a ^ 2) * (w * w))%C by (replace (a ^ 2) with (a * a) by ring; rewrite RtoC_mult; ring).
      rewrite Ha2. replace (r ^ 2) with (r * r) by ring. rewrite !RtoC_mult. ring. }
    cbn [cpow]. replace (- Ci * k * RtoC r)%C with (- (RtoC a * w))%C by (rewrite <- Kr; ring). rewrite (wexp_ww a (bf f) : cexp (- (RtoC a * w))%C = _). fold e.
    replace (RtoC 9 * Ci * k * RtoC r)%C with (RtoC 9 * (RtoC a * w))%C by (rewrite <- Kr; ring).
    replace (RtoC 4 * (k * (k * RtoC 1)) * (RtoC r * (RtoC r * RtoC 1)))%C with (- (RtoC 4 * (RtoC a * w * (RtoC a * w))))%C by (replace (RtoC 4 * (k * (k * RtoC 1)) * (RtoC r * (RtoC r * RtoC 1)))%C with (RtoC 4 * (k * k * (RtoC r * RtoC r)))%C by ring; rewrite Kr2; ring).
    replace (Ci * (k * (k * (k * RtoC 1))) * (RtoC r * (RtoC r * (RtoC r * RtoC 1))))%C with (- (RtoC a * w * (RtoC a * w) * (RtoC a * w)))%C by (replace (Ci * (k * (k * (k * RtoC 1))) * (RtoC r * (RtoC r * (RtoC r * RtoC 1))))%C with ((Ci * k * RtoC r) * (k * k * (RtoC r * RtoC r)))%C by ring; rewrite Kr, Kr2; ring).
    replace (k * (k * RtoC 1) * (RtoC r * (RtoC r * (RtoC r * (RtoC r * (RtoC r * RtoC 1))))))%C with (- (RtoC a * w * (RtoC a * w)) * (RtoC r * RtoC r * RtoC r))%C by (rewrite <- Kr2; ring).
    assert (Nr : RtoC r <> RtoC 0) by (apply RtoC_neq; lra). assert (Na : RtoC a <> RtoC 0) by (apply RtoC_neq; lra).
    unfold frq.
    assert (Cc : RtoC c = (- (RtoC (m / (4 * PI)) / (RtoC r * RtoC r * RtoC r)))%C).
    { unfold c. rewrite RtoC_opp. f_equal. rewrite RtoC_div by (apply pow_nonzero; lra). f_equal. replace (r ^ 3) with (r * r * r) by ring. rewrite !RtoC_mult. reflexivity. }
    assert (C1 : RtoC (18 / a ^ 2 * c) = (RtoC 2 * RtoC 9 * RtoC c / (RtoC a * RtoC a))%C) by (rewrite <- !RtoC_mult, <- RtoC_div by nra; f_equal; field; lra).
    assert (C2 : RtoC (- (18 / a * c)) = (- (RtoC 2 * RtoC 9 * RtoC c / RtoC a))%C) by (rewrite <- !RtoC_mult, <- RtoC_div, <- RtoC_opp by lra; f_equal; field; lra).
    assert (C3 : (RtoC (- (3 * a * c)) * (RtoC (2 / a) * e))%C = (- (RtoC 2 * RtoC 3 * RtoC c) * e)%C) by (rewrite Cmult_assoc, <- !RtoC_mult, <- RtoC_opp; do 2 f_equal; field; lra).
    assert (C4 : (RtoC (- (a ^ 3 / 2 * c)) * (RtoC (4 / a ^ 3) * ((RtoC 1 + RtoC a * w) * e)))%C = (- (RtoC 2 * RtoC c) * ((RtoC 1 + RtoC a * w) * e))%C) by (rewrite Cmult_assoc, <- !RtoC_mult, <- RtoC_opp; do 2 f_equal; field; lra).
    rewrite C1, C2, C3, C4, Cc. generalize (RtoC (m / (4 * PI))). intro M. replace (RtoC 4) with (RtoC 3 + RtoC 1)%C by (rewrite <- RtoC_plus; f_equal; ring).
    generalize (RtoC 9) (RtoC 3) (RtoC 2) . intros t9 t3 t2. field. repeat split; try assumption.
    intro Q. apply (Cmult_neq_0 _ _ (Cmult_neq_0 _ _ Na Nw) (Cmult_neq_0 _ _ Na Nw)). transitivity (- - (RtoC a * w * (RtoC a * w)))%C; [ring|rewrite Q; ring].
  Qed.
  Lemma vmd_step (h : R -> vec3) : (forall t, tv_H (tv_at s t) [x; y] = Ok (h t)) ->
    is_step_off (fun t => vz (h t)) f (cvz (mh_H iv kv mu d false (V3 x y z))).
  Proof.
    intro H. assert (E : forall t, h t = vmd_H t sg mu m X Y) by (intro t; specialize (H t); injection H; intro Q; symmetry; exact Q).
    apply known_step with (fun t => vz (vmd_dH t sg mu m X Y)); [|exact vmd_dz_fourier].
    intros t Ht. apply D_ext with (fun t => vz (vmd_H t sg mu m X Y)); [intro u; rewrite E; reflexivity|].
    exact (proj2 (proj2 (vmd_time t sg mu m X Y Ht Hs Hm off))).
  Qed.
End VMD.
