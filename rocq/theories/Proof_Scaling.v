(** Similitude: whole-space sources. *)
From Coq Require Import Reals Lra Lia List String.
From Coquelicot Require Import Coquelicot.
From Verif Require Import Vec3 Cplx Numpy Model_Spatial Model_Static Model_Gravity Model_FDEM Model_TDEM Spec_Static Spec_Scaling Proof_Static3 Proof_FDEM Proof_FDEM4.
Import ListNotations.
Open Scope R_scope.

Lemma Cmod_scal_pos a z : 0 <= a -> Cmod (RtoC a * z)%C = a * Cmod z.
Proof. intros A. rewrite Cmod_mult, Cmod_R, Rabs_pos_eq; auto. Qed.
Lemma csqrt_scale a z : 0 < a -> csqrt (RtoC (a ^ 2) * z)%C = (RtoC a * csqrt z)%C.
Proof.
  intros A. unfold csqrt. rewrite Cmod_scal_pos by (apply pow_le; lra).
  replace (Re (RtoC (a ^ 2) * z)%C) with (a ^ 2 * Re z) by (destruct z; cbn; ring).
  replace (Im (RtoC (a ^ 2) * z)%C) with (a ^ 2 * Im z) by (destruct z; cbn; ring).
  assert (A2 : 0 < a ^ 2) by (apply pow_lt; exact A).
  replace ((a ^ 2 * Cmod z + a ^ 2 * Re z) / 2) with (a ^ 2 * ((Cmod z + Re z) / 2)) by field.
  replace ((a ^ 2 * Cmod z - a ^ 2 * Re z) / 2) with (a ^ 2 * ((Cmod z - Re z) / 2)) by field.
  rewrite !(sqrt_mult_alt (a ^ 2)) by lra. rewrite sqrt_pow2 by lra.
  destruct (Rle_dec 0 (a ^ 2 * Im z)), (Rle_dec 0 (Im z)); try (exfalso; nra); apply C_eq; cbn; ring.
Qed.

Lemma vscal_vscal k l v : vscal k (vscal l v) = vscal (k * l) v.
Proof. destruct v; vring. Qed.
Lemma rc_assoc x y z : (RtoC x * (RtoC y * z) = RtoC (x * y) * z)%C.
Proof. rewrite RtoC_mult. ring. Qed.
Lemma rc_assoc3 x y z w : (RtoC x * (RtoC y * z * w) = RtoC (x * y) * z * w)%C.
Proof. rewrite RtoC_mult. ring. Qed.
Lemma rc_div x y : y <> 0 -> RtoC (x / y) = (RtoC x * / RtoC y)%C.
Proof. intros Y. unfold Rdiv. rewrite RtoC_mult, RtoC_inv by exact Y. reflexivity. Qed.
Section Scale.
Variable a : R.
Hypothesis A : 0 < a.
Notation sc := (vscal a).
Lemma sub_scale p c : vsub (sc p) (sc c) = sc (vsub p c).
Proof. destruct p, c; vring. Qed.
Lemma norm_scale v : vnorm (sc v) = a * vnorm v.
Proof. rewrite vnorm_scal, Rabs_pos_eq; lra. Qed.
Lemma hat_scale v : vdiv (sc v) (a * vnorm v) = vdiv v (vnorm v).
Proof.
  destruct (Req_dec (vnorm v) 0) as [E|E].
  - apply vnorm_eq0 in E. subst v. unfold vdiv. apply vec3_eq; vunf; unfold Rdiv; ring.
  - unfold vdiv. apply vec3_eq; vunf; field; lra.
Qed.
Lemma k_scale m m' : same_induction a m m' -> (fd_k m = RtoC a * fd_k m')%C.
Proof.
  intros (Q & I & D). unfold fd_k, wavenumber. rewrite Q. unfold omega.
  destruct (is_True (fd_qs m)) eqn:T.
  - rewrite <- csqrt_scale by exact A. f_equal. replace (fd_freq m) with (fd_freq m) by reflexivity.
    replace (- Ci * RtoC (2 * PI * fd_freq m) * RtoC (fd_mu m) * RtoC (fd_sigma m))%C with (- Ci * RtoC (2 * PI * (fd_freq m * fd_mu m * fd_sigma m)))%C by (rewrite !RtoC_mult; ring).
    rewrite <- I. rewrite !RtoC_mult. ring.
  - rewrite <- csqrt_scale by exact A. f_equal.
    assert (N : fd_qs m <> PyTrue) by (intro E; rewrite E in T; discriminate). specialize (D N).
    replace (- Ci * RtoC (2 * PI * fd_freq m) * RtoC (fd_mu m) * RtoC (fd_sigma m))%C with (- Ci * RtoC (2 * PI * (fd_freq m * fd_mu m * fd_sigma m)))%C by (rewrite !RtoC_mult; ring).
    replace (Ci * RtoC (2 * PI * fd_freq m) * RtoC (fd_mu m) * RtoC (fd_sigma m))%C with (Ci * RtoC (2 * PI * (fd_freq m * fd_mu m * fd_sigma m)))%C by (rewrite !RtoC_mult; ring).
    replace ((2 * PI * fd_freq m) ^ 2 * fd_mu m * fd_eps m) with ((2 * PI) ^ 2 * (fd_freq m ^ 2 * fd_mu m * fd_eps m)) by ring.
    rewrite <- I, <- D. replace ((2 * PI * fd_freq m') ^ 2 * fd_mu m' * fd_eps m') with ((2 * PI) ^ 2 * (fd_freq m' ^ 2 * fd_mu m' * fd_eps m')) by ring.
    rewrite !RtoC_mult. ring.
Qed.
Lemma kr_scale m m' r : same_induction a m m' -> (fd_k m' * RtoC (a * r) = fd_k m * RtoC r)%C.
Proof. intros S. rewrite (k_scale m m' S), RtoC_mult. ring. Qed.
Lemma terms_scal k f kr h o : dipole_terms (k * f)%C kr h o = cvscal k (dipole_terms f kr h o).
Proof. unfold dipole_terms. destruct h, o. apply cvec_eq; cbn; ring. Qed.
Lemma cvof_scal k f o : cvof (k * f)%C o = cvscal k (cvof f o).
Proof. destruct o. apply cvec_eq; cbn; ring. Qed.
Lemma rinv_scale x y n : x / (y * (a * n)) = / a * (x / (y * n)).
Proof. unfold Rdiv. replace (y * (a * n)) with (a * (y * n)) by ring. rewrite Rinv_mult. ring. Qed.

(** the frequency-domain dipoles, same current moment *)
Lemma ed_scale m m' I l o c p : same_induction a m m' -> fd_sigma m' <> 0 -> fd_sigma m <> 0 ->
  let s := ED m I l o c in let s' := ED m' I l o (sc c) in
  ed_A s' (sc p) = cvscal (RtoC (/ a)) (ed_A s p) /\
  ed_E s' (sc p) = cvscal (RtoC (fd_sigma m / fd_sigma m' / a ^ 3)) (ed_E s p) /\
  ed_J s' (sc p) = cvscal (RtoC (/ a ^ 3)) (ed_J s p) /\
  ed_H s' (sc p) = cvscal (RtoC (/ a ^ 2)) (ed_H s p) /\
  ed_B s' (sc p) = cvscal (RtoC (fd_mu m' / a ^ 2)) (ed_H s p).
Proof.
  intros S G' G. cbv zeta.
  assert (E : ed_E (ED m' I l o (sc c)) (sc p) = cvscal (RtoC (fd_sigma m / fd_sigma m' / a ^ 3)) (ed_E (ED m I l o c) p)).
  { unfold ed_E. cbn [ed_med ed_current ed_length ed_orient ed_loc]. rewrite sub_scale, norm_scale, hat_scale, (kr_scale m m' _ S), <- terms_scal. f_equal.
    rewrite rc_assoc. do 2 f_equal. generalize (vnorm (vsub p c)). intros r. destruct (Req_dec r 0) as [->|R].
    - unfold Rdiv. replace (4 * PI * fd_sigma m' * (a * 0) ^ 3) with 0 by ring. replace (4 * PI * fd_sigma m * 0 ^ 3) with 0 by ring. rewrite Rinv_0. ring.
    - pose proof PI_RGT_0. field. repeat split; lra. }
  assert (H : ed_H (ED m' I l o (sc c)) (sc p) = cvscal (RtoC (/ a ^ 2)) (ed_H (ED m I l o c) p)).
  { unfold ed_H. cbn [ed_med ed_current ed_length ed_orient ed_loc]. rewrite sub_scale, norm_scale, hat_scale, (kr_scale m m' _ S), <- cvof_scal. f_equal.
    rewrite rc_assoc3. do 3 f_equal. unfold Rdiv. rewrite Rpow_mult_distr. replace (4 * PI * (a ^ 2 * vnorm (vsub p c) ^ 2)) with (a ^ 2 * (4 * PI * vnorm (vsub p c) ^ 2)) by ring. rewrite Rinv_mult. ring. }
  split; [|split; [exact E|split; [|split; [exact H|]]]].
  - unfold ed_A. cbn [ed_med ed_current ed_length ed_orient ed_loc]. rewrite sub_scale, norm_scale, <- cvof_scal. f_equal.
    replace (- Ci * fd_k m' * RtoC (a * vnorm (vsub p c)))%C with (- Ci * fd_k m * RtoC (vnorm (vsub p c)))%C by (rewrite <- !Cmult_assoc, (kr_scale m m' _ S); reflexivity).
    rewrite rc_assoc, rinv_scale. reflexivity.
  - unfold ed_J. rewrite E. cbn [ed_med]. destruct (ed_E (ED m I l o c) p) as [q1 q2 q3]. apply cvec_eq; cbn [cvx cvy cvz cvscal]; rewrite !rc_assoc; do 2 f_equal; unfold Rdiv; field; repeat split; lra.
  - unfold ed_B. rewrite H. cbn [ed_med]. destruct (ed_H (ED m I l o c) p) as [q1 q2 q3]. apply cvec_eq; cbn [cvx cvy cvz cvscal]; rewrite !rc_assoc; do 2 f_equal; unfold Rdiv; field; repeat split; lra.
Qed.
Lemma mf_scale m m' mom o c p : same_induction a m m' -> fd_freq m * fd_mu m <> 0 ->
  let s := MDF m mom o c in let s' := MDF m' mom o (sc c) in let w := fd_freq m' * fd_mu m' / (fd_freq m * fd_mu m) in
  mf_A s' (sc p) = cvscal (RtoC (w / a)) (mf_A s p) /\
  mf_E s' (sc p) = cvscal (RtoC (w / a ^ 2)) (mf_E s p) /\
  mf_J s' (sc p) = cvscal (RtoC (fd_sigma m' * w / a ^ 2)) (mf_E s p) /\
  mf_H s' (sc p) = cvscal (RtoC (/ a ^ 3)) (mf_H s p) /\
  mf_B s' (sc p) = cvscal (RtoC (fd_mu m' / a ^ 3)) (mf_H s p).
Proof.
  intros S W. cbv zeta. set (w := fd_freq m' * fd_mu m' / (fd_freq m * fd_mu m)).
  assert (WM : (Ci * RtoC (fd_omega m') * RtoC (fd_mu m') * RtoC mom = RtoC w * (Ci * RtoC (fd_omega m) * RtoC (fd_mu m) * RtoC mom))%C).
  { unfold fd_omega, omega. rewrite !(RtoC_mult (2 * PI)).
    replace (Ci * (RtoC (2 * PI) * RtoC (fd_freq m')) * RtoC (fd_mu m') * RtoC mom)%C with (Ci * RtoC (2 * PI) * RtoC mom * RtoC (fd_freq m' * fd_mu m'))%C by (rewrite (RtoC_mult (fd_freq m')); ring).
    replace (RtoC w * (Ci * (RtoC (2 * PI) * RtoC (fd_freq m)) * RtoC (fd_mu m) * RtoC mom))%C with (Ci * RtoC (2 * PI) * RtoC mom * RtoC (w * (fd_freq m * fd_mu m)))%C by (rewrite !RtoC_mult; ring).
    do 2 f_equal. unfold w. field. split; intro Z; apply W; rewrite Z; ring. }
  assert (RI : forall x y : R, (/ RtoC (x * y) = / RtoC x * / RtoC y)%C).
  { intros x y. destruct (Req_dec x 0) as [->|X]; [|destruct (Req_dec y 0) as [->|Y]].
    - replace (0 * y) with 0 by ring. assert (Z : (/ RtoC 0 = 0)%C) by (apply C_eq; cbn; unfold Rdiv; ring). rewrite Z. ring.
    - replace (x * 0) with 0 by ring. assert (Z : (/ RtoC 0 = 0)%C) by (apply C_eq; cbn; unfold Rdiv; ring). rewrite Z. ring.
    - rewrite RtoC_mult. field. split; apply RtoC_neq; assumption. }
  assert (E : mf_E (MDF m' mom o (sc c)) (sc p) = cvscal (RtoC (w / a ^ 2)) (mf_E (MDF m mom o c) p)).
  { unfold mf_E. cbn [mf_med mf_moment mf_orient mf_loc]. rewrite sub_scale, norm_scale, hat_scale, (kr_scale m m' _ S), <- cvof_scal. f_equal.
    rewrite WM. unfold Cdiv. replace (4 * PI * (a * vnorm (vsub p c)) ^ 2) with (a ^ 2 * (4 * PI * vnorm (vsub p c) ^ 2)) by ring. rewrite (RI (a ^ 2)).
    rewrite (rc_div w) by (apply pow_nonzero; lra). ring. }
  assert (H : mf_H (MDF m' mom o (sc c)) (sc p) = cvscal (RtoC (/ a ^ 3)) (mf_H (MDF m mom o c) p)).
  { unfold mf_H. cbn [mf_med mf_moment mf_orient mf_loc]. rewrite sub_scale, norm_scale, hat_scale, (kr_scale m m' _ S), <- terms_scal. f_equal.
    rewrite rc_assoc. do 2 f_equal. unfold Rdiv. rewrite Rpow_mult_distr. replace (4 * PI * (a ^ 3 * vnorm (vsub p c) ^ 3)) with (a ^ 3 * (4 * PI * vnorm (vsub p c) ^ 3)) by ring. rewrite Rinv_mult. ring. }
  split; [|split; [exact E|split; [|split; [exact H|]]]].
  - unfold mf_A. cbn [mf_med mf_moment mf_orient mf_loc]. rewrite sub_scale, norm_scale, <- cvof_scal. f_equal.
    replace (- Ci * fd_k m' * RtoC (a * vnorm (vsub p c)))%C with (- Ci * fd_k m * RtoC (vnorm (vsub p c)))%C by (rewrite <- !Cmult_assoc, (kr_scale m m' _ S); reflexivity).
    rewrite WM. unfold Cdiv. replace (4 * PI * (a * vnorm (vsub p c))) with (a * (4 * PI * vnorm (vsub p c))) by ring. rewrite (RI a).
    rewrite (rc_div w) by lra. ring.
  - unfold mf_J. rewrite E. cbn [mf_med]. destruct (mf_E (MDF m mom o c) p) as [q1 q2 q3]. apply cvec_eq; cbn [cvx cvy cvz cvscal]; rewrite !rc_assoc; do 2 f_equal; unfold Rdiv; ring.
  - unfold mf_B. rewrite H. cbn [mf_med]. destruct (mf_H (MDF m mom o c) p) as [q1 q2 q3]. apply cvec_eq; cbn [cvx cvy cvz cvscal]; rewrite !rc_assoc; do 2 f_equal; unfold Rdiv; ring.
Qed.
Lemma pw_scale m m' E0 o p : same_induction a m m' -> fd_freq m <> 0 -> fd_freq m' <> 0 ->
  let s := PW m E0 o in let s' := PW m' E0 o in
  pw_E s' (sc p) = pw_E s p /\
  pw_B s' (sc p) = cvscal (RtoC (fd_freq m / fd_freq m' / a)) (pw_B s p).
Proof.
  intros S F F'. cbv zeta. unfold pw_E, pw_B. cbn [pw_med pw_amp pw_orient].
  replace (vz (sc p)) with (a * vz p) by reflexivity.
  assert (K : (Ci * fd_k m' * RtoC (a * vz p) = Ci * fd_k m * RtoC (vz p))%C) by (rewrite <- !Cmult_assoc, (kr_scale m m' _ S); reflexivity).
  split; [now rewrite K|]. rewrite (kr_scale m m' _ S), <- cvof_scal. f_equal. rewrite (k_scale m m' S). unfold fd_omega, omega, Cdiv. rewrite !RtoC_mult.
  assert (RF : RtoC (fd_freq m) <> 0%C) by (apply RtoC_neq; exact F). assert (RF' : RtoC (fd_freq m') <> 0%C) by (apply RtoC_neq; exact F').
  assert (RA : RtoC a <> 0%C) by (apply RtoC_neq; lra). assert (RP : RtoC PI <> 0%C) by (apply RtoC_neq; pose proof PI_RGT_0; lra).
  assert (R2 : RtoC 2 <> 0%C) by (apply RtoC_neq; lra).
  unfold Rdiv. rewrite !RtoC_mult, !RtoC_inv by lra. field. repeat split; assumption.
Qed.

(** transients *)
Lemma theta_scale m m' r : same_diffusion a m m' -> td_theta m' * (a * r) = td_theta m * r.
Proof.
  intros (T & T' & G & G' & M & M' & E). unfold td_theta, theta.
  replace (td_mu m * td_sigma m / (4 * td_time m)) with (a ^ 2 * (td_mu m' * td_sigma m' / (4 * td_time m'))).
  - rewrite sqrt_mult_alt by (apply pow_le; lra). rewrite sqrt_pow2 by lra. ring.
  - replace (td_mu m * td_sigma m / (4 * td_time m)) with (td_mu m * td_sigma m / td_time m / 4) by (field; lra). rewrite <- E. field. lra.
Qed.
Lemma te_scale m m' I l o c p : same_diffusion a m m' -> p <> c ->
  let s := TED m I l o c in let s' := TED m' I l o (sc c) in
  te_A s' (sc p) = vscal (/ a) (te_A s p) /\
  te_E s' (sc p) = vscal (td_sigma m / td_sigma m' / a ^ 3) (te_E s p) /\
  te_J s' (sc p) = vscal (/ a ^ 3) (te_J s p) /\
  te_H s' (sc p) = vscal (/ a ^ 2) (te_H s p) /\
  te_B s' (sc p) = vscal (td_mu m' / a ^ 2) (te_H s p) /\
  te_dH s' (sc p) = vscal (td_time m / td_time m' / a ^ 2) (te_dH s p) /\
  te_dB s' (sc p) = vscal (td_mu m' * (td_time m / td_time m') / a ^ 2) (te_dH s p).
Proof.
  intros S P. cbv zeta. unfold te_J, te_B, te_dB, te_A, te_E, te_H, te_dH. cbn [te_med te_current te_length te_orient te_loc].
  rewrite sub_scale, norm_scale, hat_scale, (theta_scale m m' _ S).
  assert (R : 0 < vnorm (vsub p c)).
  { destruct (Rle_lt_or_eq_dec 0 _ (vnorm_nonneg (vsub p c))) as [L|L]; [exact L|]. symmetry in L. apply vnorm_eq0 in L. exfalso. apply P.
    destruct p, c. unfold vsub, vzero in L. cbn in L. injection L as L1 L2 L3. apply vec3_eq; cbn; lra. }
  generalize dependent (vnorm (vsub p c)). intros r R. generalize (vdiv (vsub p c) r). intros h.
  destruct S as (T & T' & G & G' & M & M' & _). pose proof PI_RGT_0.
  assert (SP : sqrt PI <> 0) by (intro E; apply sqrt_eq_0 in E; lra).
  generalize (vcross o h). intros x. generalize (vdot h o). intros d. generalize (erf (td_theta m * r)) (exp (- (td_theta m * r) ^ 2)) (td_theta m). intros e E t.
  repeat split; destruct o, h, x; apply vec3_eq; vunf; field; repeat split; lra.
Qed.
Lemma tp_scale m m' E0 o p : same_diffusion a m m' ->
  let s := TPW m E0 o in let s' := TPW m' E0 o in
  tp_E s' (sc p) = vscal (td_time m / td_time m') (tp_E s p) /\
  tp_B s' (sc p) = vscal (/ a) (tp_B s p).
Proof.
  intros (T & T' & G & G' & M & M' & E). cbv zeta. unfold tp_E, tp_B. cbn [tp_med tp_amp tp_orient].
  replace (vz (sc p)) with (a * vz p) by reflexivity. generalize (vz p). intros z. pose proof PI_RGT_0.
  assert (X : td_mu m' * td_sigma m' * (a * z) ^ 2 / (4 * td_time m') = td_mu m * td_sigma m * z ^ 2 / (4 * td_time m)).
  { replace (td_mu m' * td_sigma m' * (a * z) ^ 2 / (4 * td_time m')) with (a ^ 2 * (td_mu m' * td_sigma m' / td_time m') * z ^ 2 / 4) by (field; lra). rewrite E. field. lra. }
  assert (MS : 0 < td_mu m * td_sigma m) by (apply Rmult_lt_0_compat; lra).
  assert (MS' : 0 < td_mu m' * td_sigma m') by (apply Rmult_lt_0_compat; lra).
  assert (Q : a * sqrt (td_mu m' * td_sigma m') * sqrt (td_time m) = sqrt (td_mu m * td_sigma m) * sqrt (td_time m')).
  { rewrite <- (sqrt_pow2 a) at 1 by lra. rewrite <- !sqrt_mult_alt; try lra; [|apply Rmult_le_pos; [apply pow_le; lra|lra]|apply pow_le; lra].
    f_equal. apply (Rmult_eq_reg_r (/ td_time m * / td_time m')); [|apply Rgt_not_eq, Rmult_lt_0_compat; apply Rinv_0_lt_compat; lra].
    replace (a ^ 2 * (td_mu m' * td_sigma m') * td_time m * (/ td_time m * / td_time m')) with (a ^ 2 * (td_mu m' * td_sigma m' / td_time m')) by (field; lra). rewrite E. field. lra. }
  split.
  - rewrite vscal_vscal. f_equal. replace (- (td_mu m' * td_sigma m' * (a * z) ^ 2) / (4 * td_time m')) with (- (td_mu m * td_sigma m * z ^ 2) / (4 * td_time m)) by (unfold Rdiv in *; rewrite !Ropp_mult_distr_l_reverse; now rewrite X). pose proof (sqrt_lt_R0 _ T). pose proof (sqrt_lt_R0 _ T').
    assert (SP : 0 < sqrt PI) by (apply sqrt_lt_R0; lra).
    set (ex := exp _). set (sm := sqrt (td_mu m * td_sigma m)) in *. set (sm' := sqrt (td_mu m' * td_sigma m')) in *.
    transitivity (- E0 * z * ex * (a * sm' * sqrt (td_time m)) / (2 * sqrt PI * td_time m' * sqrt (td_time m') * sqrt (td_time m))); [field; repeat split; lra|].
    rewrite Q. field. repeat split; lra.
  - rewrite vscal_vscal. f_equal. replace (- td_mu m' * td_sigma m' * (a * z) ^ 2 / (4 * td_time m')) with (- (td_mu m' * td_sigma m' * (a * z) ^ 2 / (4 * td_time m'))) by (field; lra). rewrite X.
    replace (- (td_mu m * td_sigma m * z ^ 2 / (4 * td_time m))) with (- td_mu m * td_sigma m * z ^ 2 / (4 * td_time m)) by (field; lra).
    replace (td_sigma m * td_mu m / (PI * td_time m)) with (a ^ 2 * (td_sigma m' * td_mu m' / (PI * td_time m'))).
    + rewrite (sqrt_mult_alt (a ^ 2)), sqrt_pow2 by (try apply pow_le; lra). field. lra.
    + replace (td_sigma m * td_mu m / (PI * td_time m)) with (td_mu m * td_sigma m / td_time m / PI) by (field; lra). rewrite <- E. field. lra.
Qed.
End Scale.
