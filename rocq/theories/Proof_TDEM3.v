(** The transient loop, the half-space dipole and the reference formulas (C72, C73, C74, C85). *)
From Coq Require Import Reals Lra List.
From Coquelicot Require Import Coquelicot.
From Verif Require Import Vec3 Calculus Deriv Numpy Model_Spatial Model_TDEM SpecFun Spec_TDEM Model_Static Proof_Static2 Proof_Loop2 Proof_TDEM.
Import ListNotations.
Open Scope R_scope.

Ltac absf := repeat match goal with
    | |- context [erf ?x] => let e := fresh "e" in set (e := erf x) in *; clearbody e
    | |- context [exp ?x] => let e := fresh "e" in set (e := exp x) in *; clearbody e
    | |- context [iv ?n ?x] => let e := fresh "b" in set (e := iv n x) in *; clearbody e
    | |- context [sqrt PI] => let w := fresh "w" in set (w := sqrt PI) in *; clearbody w
    end; cbn [INR Init.Nat.pred].

Section Time.
  Variables (sg mu t r : R).
  Hypothesis Hs : 0 < sg.
  Hypothesis Hm : 0 < mu.
  Hypothesis Ht : 0 < t.
  Hypothesis Hr : 0 < r.

  Lemma s_pos : 0 < theta t sg mu * r.
  Proof. apply Rmult_lt_0_compat; [apply theta_pos; assumption|exact Hr]. Qed.
  Lemma D_s : is_derive (fun t => theta t sg mu * r) t (- (theta t sg mu * r) / (2 * t)).
  Proof. pose proof (D_theta t sg mu Ht Hs Hm). eapply is_derive_eq; [der|]. field. lra. Qed.
  (** a function of s = theta r, differentiated in time *)
  Lemma D_time (G : R -> R) d : is_derive G (theta t sg mu * r) d ->
    is_derive (fun t => G (theta t sg mu * r)) t (- (theta t sg mu * r) / (2 * t) * d).
  Proof. intro D. apply (D_comp G (fun t => theta t sg mu * r)); [exact D|apply D_s]. Qed.
End Time.

(** ** loop *)
Definition gloop (s : R) : R := 3 / (sqrt PI * s) * exp (- s ^ 2) + (1 - 3 / (2 * s ^ 2)) * erf s.
Definition nloop (s : R) : R := 3 * erf s - 2 * s / sqrt PI * (3 + 2 * s ^ 2) * exp (- s ^ 2).
Lemma D_gloop s : 0 < s -> is_derive gloop s (nloop s / s ^ 3).
Proof.
  intro H. pose proof sqrt_PI_pos. pose proof (D_erf s) as X. unfold gloop, nloop. eapply is_derive_eq; [der; nz|].
  absf. field. lra.
Qed.
Lemma tloop_hz_g t sg mu a I n : tloop_hz t sg mu a I n = n * I * (gloop (theta t sg mu * a) / (2 * a)).
Proof. reflexivity. Qed.
Lemma tloop_dbz_n t sg mu a I n : tloop_dbz t sg mu a I n = - n * I / (sg * a ^ 3) * nloop (theta t sg mu * a).
Proof. reflexivity. Qed.

Lemma tloop_bz_time t sg mu a I n : 0 < t -> 0 < sg -> 0 < mu -> 0 < a ->
  is_derive (fun t => tloop_bz t sg mu a I n) t (tloop_dbz t sg mu a I n).
Proof.
  intros Ht Hs Hm Ha. pose proof (s_pos sg mu t a Hs Hm Ht Ha) as P. pose proof (D_time sg mu t a Hs Hm Ht gloop _ (D_gloop _ P)) as D.
  apply D_ext with (f := fun t => mu * (n * I * (gloop (theta t sg mu * a) / (2 * a)))); [reflexivity|].
  eapply is_derive_eq; [der; lra|]. rewrite tloop_dbz_n. pose proof (theta_sq t sg mu Ht Hs Hm) as S. pose proof (theta_pos t sg mu Ht Hs Hm) as TP.
  set (N := nloop _). clearbody N. set (th := theta t sg mu) in *. clearbody th.
  assert (M : mu = 4 * t * th ^ 2 / sg) by (rewrite S; field; lra). rewrite M. field. repeat split; lra.
Qed.
Lemma tloop_hz_time t sg mu a I n : 0 < t -> 0 < sg -> 0 < mu -> 0 < a ->
  is_derive (fun t => tloop_hz t sg mu a I n) t (tloop_dhz t sg mu a I n).
Proof.
  intros Ht Hs Hm Ha. pose proof (tloop_bz_time t sg mu a I n Ht Hs Hm Ha) as D.
  apply D_ext with (f := fun t => tloop_bz t sg mu a I n / mu).
  - intro u. unfold tloop_bz. field. lra.
  - unfold tloop_dhz. eapply is_derive_eq; [der; lra|]. field. lra.
Qed.

(** ** vertical magnetic dipole *)
Definition gz (s : R) : R := (9 / (2 * s ^ 2) - 1) * erf s - (9 / s + 4 * s) / sqrt PI * exp (- s ^ 2).
Definition dgz (s : R) : R := 9 / (2 * s ^ 2) * erf s - (4 * s ^ 3 + 6 * s + 9 / s) / sqrt PI * exp (- s ^ 2).
Lemma D_gz s : 0 < s -> is_derive gz s (-2 / s * dgz s).
Proof.
  intro H. pose proof sqrt_PI_pos. pose proof (D_erf s) as X. unfold gz, dgz. eapply is_derive_eq; [der; nz|].
  absf. field. lra.
Qed.

Definition gr (s : R) : R := 2 * s ^ 2 * (ive 1 (s ^ 2 / 2) - ive 2 (s ^ 2 / 2)).
Definition dgr (s : R) : R := -2 * s ^ 2 * ((1 + s ^ 2) * ive 0 (s ^ 2 / 2) - (2 + s ^ 2 + 4 / s ^ 2) * ive 1 (s ^ 2 / 2)).
Lemma ive_half n s : ive n (s ^ 2 / 2) = iv n (s ^ 2 / 2) * exp (- (s ^ 2 / 2)).
Proof. unfold ive. rewrite Rabs_right; [reflexivity|]. pose proof (pow2_ge_0 s). lra. Qed.
Lemma D_iv_2 z : z <> 0 -> is_derive (iv 2) z (iv 1 z - 2 * iv 2 z / z).
Proof.
  intro Hz. eapply is_derive_eq; [apply D_iv_S|]. pose proof (iv_rec 1 z) as E. cbn [INR] in E.
  assert (iv 3 z = iv 1 z - 4 * iv 2 z / z) as ->. { apply (Rmult_eq_reg_l z); [|exact Hz]. field_simplify; [|exact Hz]. lra. }
  field. exact Hz.
Qed.
Lemma D_gr s : 0 < s -> is_derive gr s (-2 / s * dgr s).
Proof.
  intro H. assert (W : s ^ 2 / 2 <> 0) by nra.
  apply D_ext with (f := fun s => 2 * s ^ 2 * ((iv 1 (s ^ 2 / 2) - iv 2 (s ^ 2 / 2)) * exp (- (s ^ 2 / 2)))).
  { intro u. unfold gr. rewrite !ive_half. ring. }
  assert (Dw : is_derive (fun s : R => s ^ 2 / 2) s s) by (eapply is_derive_eq; [der; lra|]; cbn [INR Init.Nat.pred]; field).
  pose proof (D_comp (iv 1) (fun s => s ^ 2 / 2) s _ _ (D_iv_1 _ W) Dw) as D1.
  pose proof (D_comp (iv 2) (fun s => s ^ 2 / 2) s _ _ (D_iv_2 _ W) Dw) as D2.
  cbv beta in D1, D2.
  eapply is_derive_eq; [der|]. unfold dgr. rewrite !ive_half.
  rewrite (iv_2 _ W). absf. field. lra.
Qed.

Definition vmd_off (x y : R) : R := sqrt (x ^ 2 + y ^ 2).
Lemma vmd_off_pos x y : x <> 0 \/ y <> 0 -> 0 < vmd_off x y.
Proof. intro H. unfold vmd_off. apply sqrt_lt_R0. destruct H as [H|H]; pose proof (pow2_gt_0 _ H); pose proof (pow2_ge_0 x); pose proof (pow2_ge_0 y); lra. Qed.

Lemma vmd_H_g t sg mu m x y : vmd_H t sg mu m x y =
  vscal (m / (4 * PI) / vmd_off x y ^ 3) (V3 (cos (atan2 y x) * gr (theta t sg mu * vmd_off x y)) (sin (atan2 y x) * gr (theta t sg mu * vmd_off x y)) (gz (theta t sg mu * vmd_off x y))).
Proof. unfold vmd_H, gr, gz. fold (vmd_off x y). set (a := erf _). set (b := exp _). set (c := ive 1 _). set (d := ive 2 _). clearbody a b c d. veq; unfold Rdiv; ring. Qed.
Lemma vmd_dH_g t sg mu m x y : vmd_dH t sg mu m x y =
  vscal (m / (4 * PI) * / (vmd_off x y ^ 3 * t)) (V3 (cos (atan2 y x) * dgr (theta t sg mu * vmd_off x y)) (sin (atan2 y x) * dgr (theta t sg mu * vmd_off x y)) (dgz (theta t sg mu * vmd_off x y))).
Proof. unfold vmd_dH, dgr, dgz. fold (vmd_off x y). set (a := erf _). set (b := exp _). set (c := ive 0 _). set (d := ive 1 _). clearbody a b c d. veq; unfold Rdiv; ring. Qed.

Lemma vmd_time t sg mu m x y : 0 < t -> 0 < sg -> 0 < mu -> (x <> 0 \/ y <> 0) ->
  is_vderive (fun t => vmd_H t sg mu m x y) t (vmd_dH t sg mu m x y).
Proof.
  intros Ht Hs Hm O. pose proof (vmd_off_pos x y O) as Hr. set (r := vmd_off x y) in *. pose proof PI_RGT_0.
  pose proof (s_pos sg mu t r Hs Hm Ht Hr) as P.
  pose proof (D_time sg mu t r Hs Hm Ht gz _ (D_gz _ P)) as Dz.
  pose proof (D_time sg mu t r Hs Hm Ht gr _ (D_gr _ P)) as Dr.
  rewrite vmd_dH_g. fold r. pose proof (theta_pos t sg mu Ht Hs Hm) as TP.
  assert (T : 0 < theta t sg mu * r) by exact P.
  split; [|split].
  - apply D_ext with (f := fun t => m / (4 * PI) / r ^ 3 * (cos (atan2 y x) * gr (theta t sg mu * r))); [intro u; rewrite vmd_H_g; reflexivity|].
    eapply is_derive_eq; [der|]. cbn [vscal vx vy vz]. set (q := dgr _). clearbody q. field. repeat split; lra.
  - apply D_ext with (f := fun t => m / (4 * PI) / r ^ 3 * (sin (atan2 y x) * gr (theta t sg mu * r))); [intro u; rewrite vmd_H_g; reflexivity|].
    eapply is_derive_eq; [der|]. cbn [vscal vx vy vz]. set (q := dgr _). clearbody q. field. repeat split; lra.
  - apply D_ext with (f := fun t => m / (4 * PI) / r ^ 3 * (gz (theta t sg mu * r))); [intro u; rewrite vmd_H_g; reflexivity|].
    eapply is_derive_eq; [der|]. cbn [vscal vx vy vz]. set (q := dgz _). clearbody q. field. repeat split; lra.
Qed.
Lemma vmd_B_time t sg mu m x y : 0 < t -> 0 < sg -> 0 < mu -> (x <> 0 \/ y <> 0) ->
  is_vderive (fun t => vmd_B t sg mu m x y) t (vmd_dB t sg mu m x y).
Proof.
  intros Ht Hs Hm O. destruct (vmd_time t sg mu m x y Ht Hs Hm O) as [A [B C]].
  split; [|split]; cbn [vmd_B vmd_dB vscal vx vy vz]; apply D_scal; assumption.
Qed.

(** ** reference formulas *)
Lemma ref_radial_h t sg mu m x y : 0 < t -> 0 < sg -> 0 < mu -> (x <> 0 \/ y <> 0) ->
  let rho := sqrt (x ^ 2 + y ^ 2) in
  let th := theta t sg mu in
  vmd_H t sg mu m x y =
  V3 (- hp_from_vert_4_72 m th rho * (x / rho)) (- hp_from_vert_4_72 m th rho * (y / rho)) (hz_from_vert_4_69a m th rho).
Proof.
  intros Ht Hs Hm O rho th. pose proof (vmd_off_pos x y O) as Hr. rewrite vmd_H_g. unfold vmd_off in *. fold rho in Hr |- *.
  pose proof PI_RGT_0. pose proof sqrt_PI_pos. pose proof (theta_pos t sg mu Ht Hs Hm) as TP. fold th in TP |- *.
  assert (Dir : cos (atan2 y x) = x / rho /\ sin (atan2 y x) = y / rho).
  { apply (atan2_dir x y). destruct O as [O|O]; pose proof (pow2_gt_0 _ O); pose proof (pow2_ge_0 x); pose proof (pow2_ge_0 y); lra. }
  destruct Dir as [-> ->]. unfold hp_from_vert_4_72, hz_from_vert_4_69a, gr, gz. clearbody th rho.
  set (i1 := ive 1 _). set (i2 := ive 2 _). clearbody i1 i2. absf. veq; field; lra.
Qed.
Lemma ref_radial_dh t sg mu m x y : 0 < t -> 0 < sg -> 0 < mu -> (x <> 0 \/ y <> 0) ->
  let rho := sqrt (x ^ 2 + y ^ 2) in
  let th := theta t sg mu in
  vmd_dH t sg mu m x y =
  V3 (- dhp_from_vert_4_74 m th rho t * (x / rho)) (- dhp_from_vert_4_74 m th rho t * (y / rho)) (- dhz_from_vert_4_70 m th rho sg mu).
Proof.
  intros Ht Hs Hm O rho th. pose proof (vmd_off_pos x y O) as Hr. rewrite vmd_dH_g. unfold vmd_off in *. fold rho in Hr |- *.
  pose proof PI_RGT_0. pose proof sqrt_PI_pos. pose proof (theta_pos t sg mu Ht Hs Hm) as TP. pose proof (theta_sq t sg mu Ht Hs Hm) as S. fold th in TP, S |- *.
  assert (Dir : cos (atan2 y x) = x / rho /\ sin (atan2 y x) = y / rho).
  { apply (atan2_dir x y). destruct O as [O|O]; pose proof (pow2_gt_0 _ O); pose proof (pow2_ge_0 x); pose proof (pow2_ge_0 y); lra. }
  destruct Dir as [-> ->]. unfold dhp_from_vert_4_74, dhz_from_vert_4_70, dgr, dgz. rewrite !ive_half. clearbody th rho.
  assert (M : mu = 4 * t * th ^ 2 / sg) by (rewrite S; field; lra). rewrite M.
  replace (- (th * rho) ^ 2 / 2) with (- ((th * rho) ^ 2 / 2)) by field. absf. veq; field; repeat split; lra.
Qed.

(** within reference.py: 4.74 is the derivative of 4.72, 4.70 is minus that of 4.69a *)
Lemma ref_dhz_sign m sg mu rho t : 0 < t -> 0 < sg -> 0 < mu -> 0 < rho ->
  is_derive (fun t => hz_from_vert_4_69a m (theta t sg mu) rho) t (- dhz_from_vert_4_70 m (theta t sg mu) rho sg mu).
Proof.
  intros Ht Hs Hm Hr. pose proof (s_pos sg mu t rho Hs Hm Ht Hr) as P. pose proof PI_RGT_0. pose proof sqrt_PI_pos.
  pose proof (D_time sg mu t rho Hs Hm Ht gz _ (D_gz _ P)) as Dz.
  apply D_ext with (f := fun t => m / (4 * PI * rho ^ 3) * gz (theta t sg mu * rho)).
  { intro u. unfold hz_from_vert_4_69a, gz. ring. }
  eapply is_derive_eq; [der|]. pose proof (theta_sq t sg mu Ht Hs Hm) as S. pose proof (theta_pos t sg mu Ht Hs Hm) as TP.
  unfold dhz_from_vert_4_70, dgz. set (th := theta t sg mu) in *. clearbody th.
  assert (M : mu = 4 * t * th ^ 2 / sg) by (rewrite S; field; lra). rewrite M. absf. field. repeat split; lra.
Qed.
Lemma ref_dhp m sg mu rho t : 0 < t -> 0 < sg -> 0 < mu -> 0 < rho ->
  is_derive (fun t => hp_from_vert_4_72 m (theta t sg mu) rho) t (dhp_from_vert_4_74 m (theta t sg mu) rho t).
Proof.
  intros Ht Hs Hm Hr. pose proof (s_pos sg mu t rho Hs Hm Ht Hr) as P. pose proof PI_RGT_0. pose proof sqrt_PI_pos.
  pose proof (D_time sg mu t rho Hs Hm Ht gr _ (D_gr _ P)) as Dr.
  apply D_ext with (f := fun t => - m / (4 * PI * rho ^ 3) * gr (theta t sg mu * rho)).
  { intro u. unfold hp_from_vert_4_72, gr. set (i1 := ive 1 _). set (i2 := ive 2 _). clearbody i1 i2. field. split; lra. }
  eapply is_derive_eq; [der|]. pose proof (theta_pos t sg mu Ht Hs Hm) as TP.
  unfold dhp_from_vert_4_74, dgr. rewrite !ive_half. set (th := theta t sg mu) in *. clearbody th.
  replace (- (th * rho) ^ 2 / 2) with (- ((th * rho) ^ 2 / 2)) by field. absf. field. repeat split; lra.
Qed.
