(** Properties of geoana/em/tdem: C69-C74, C85. *)
From Coq Require Import Reals Lra List.
From Coquelicot Require Import Coquelicot.
From Verif Require Import Vec3 Calculus Numpy Model_Static Model_TDEM Spec_TDEM SpecFun Proof_TDEM Proof_TDEM2 Proof_TDEM3 Proof_TDEM4.
Import ListNotations.
Open Scope R_scope.

(** ** C69 *)
Theorem C69_peak_time :
  forall (s : tpwave) (p : vec3) (t : R), 0 < td_sigma (tp_med s) -> 0 < td_mu (tp_med s) -> 0 < t -> vz p <> 0 ->
  let E u := vnorm (tp_E (tp_at s u) p) in
  let T := td_peak_time (tp_med s) (vz p) in
  0 < T /\ E t <= E T /\ (tp_amp s <> 0 -> tp_orient s <> vzero -> t <> T -> E t < E T).
Proof. exact tp_peak. Qed.
Theorem C69_diffusion_distance :
  forall (s : tpwave) (p q : vec3), 0 < td_sigma (tp_med s) -> 0 < td_mu (tp_med s) -> 0 < td_time (tp_med s) ->
  Rabs (vz q) = td_diffusion_distance (tp_med s) ->
  vnorm (tp_E s p) <= vnorm (tp_E s q) /\
  (tp_amp s <> 0 -> tp_orient s <> vzero -> Rabs (vz p) <> td_diffusion_distance (tp_med s) -> vnorm (tp_E s p) < vnorm (tp_E s q)).
Proof. exact tp_dist. Qed.

(** ** C70 *)
Theorem C70_maxwell :
  forall (s : tedip) (p : vec3),
  0 < td_time (te_med s) /\ 0 < td_sigma (te_med s) /\ 0 < td_mu (te_med s) -> p <> te_loc s ->
  is_curl (te_A s) p (te_H s p) /\
  is_curl (te_E s) p (vopp (te_dB s p)) /\
  is_curl (te_H s) p (vscal (td_sigma (te_med s)) (te_E s p)) /\
  is_div (te_E s) p 0 /\ is_div (te_H s) p 0.
Proof.
  intros s p O N. pose proof O as [_ [Hs _]]. repeat apply conj.
  - apply te_curl_A; assumption.
  - apply te_curl_E; assumption.
  - apply te_curl_H; assumption.
  - apply te_div_E; assumption.
  - apply te_div_H; assumption.
Qed.
Theorem C70_time_derivatives :
  forall (s : tedip) (p : vec3),
  0 < td_time (te_med s) /\ 0 < td_sigma (te_med s) /\ 0 < td_mu (te_med s) -> p <> te_loc s ->
  is_vderive (fun t => te_H (te_at s t) p) (td_time (te_med s)) (te_dH s p) /\
  is_vderive (fun t => te_B (te_at s t) p) (td_time (te_med s)) (te_dB s p).
Proof. intros s p O N. split; [apply te_H_time|apply te_B_time]; assumption. Qed.
Theorem C70_constitutive :
  forall (s : tedip) (p : vec3),
  te_J s p = vscal (td_sigma (te_med s)) (te_E s p) /\ te_B s p = vscal (td_mu (te_med s)) (te_H s p).
Proof. intros s p. split; reflexivity. Qed.

(** ** C71 *)
Theorem C71_faraday :
  forall (s : tpwave) (p : vec3), 0 < td_time (tp_med s) /\ 0 < td_sigma (tp_med s) /\ 0 < td_mu (tp_med s) ->
  exists d, is_vderive (fun t => tp_B (tp_at s t) p) (td_time (tp_med s)) d /\ is_curl (tp_E s) p (vopp d).
Proof. exact tp_curl_E. Qed.
Theorem C71_ampere :
  forall (s : tpwave) (p : vec3), 0 < td_time (tp_med s) /\ 0 < td_sigma (tp_med s) /\ 0 < td_mu (tp_med s) ->
  vz (tp_orient s) = 0 ->
  is_curl (tp_H s) p (tp_J s p) /\ tp_J s p = vscal (td_sigma (tp_med s)) (tp_E s p) /\
  tp_B s p = vscal (td_mu (tp_med s)) (tp_H s p) /\ is_div (tp_E s) p 0 /\ is_div (tp_B s) p 0.
Proof.
  intros s p O Z. destruct (tp_div s p O Z) as [A B]. pose proof O as [_ [_ Hm]].
  repeat apply conj; try assumption; try reflexivity.
  - apply tp_curl_H; assumption.
  - unfold tp_H, vdiv. veq; field; lra.
Qed.
(** every component of E satisfies d^2/dz^2 = mu sigma d/dt *)
Theorem C71_diffusion_equation :
  forall (s : tpwave) (x y : R), 0 < td_time (tp_med s) /\ 0 < td_sigma (tp_med s) /\ 0 < td_mu (tp_med s) ->
  exists E_z : R -> vec3, forall z,
  is_vderive (fun z => tp_E s (V3 x y z)) z (E_z z) /\
  exists E_t, is_vderive E_z z (vscal (td_mu (tp_med s) * td_sigma (tp_med s)) E_t) /\
            is_vderive (fun t => tp_E (tp_at s t) (V3 x y z)) (td_time (tp_med s)) E_t.
Proof. exact tp_diffusion. Qed.
Theorem C71_transverse :
  forall (s : tpwave) (p : vec3), vz (tp_orient s) = 0 ->
  vz (tp_E s p) = 0 /\ vz (tp_H s p) = 0 /\ vdot (tp_E s p) (tp_H s p) = 0.
Proof.
  intros s p Z. unfold tp_H, tp_B, tp_E, vdiv, vdot. cbn [vscal vcross vx vy vz]. rewrite Z.
  repeat apply conj; unfold Rdiv; ring.
Qed.

(** ** C72 *)
Theorem C72_flux_time_derivative :
  forall t sigma mu radius current turns, 0 < t -> 0 < sigma -> 0 < mu -> 0 < radius ->
  is_derive (fun t => tloop_bz t sigma mu radius current turns) t (tloop_dbz t sigma mu radius current turns).
Proof. exact tloop_bz_time. Qed.
Theorem C72_field_time_derivative :
  forall t sigma mu radius current turns, 0 < t -> 0 < sigma -> 0 < mu -> 0 < radius ->
  is_derive (fun t => tloop_hz t sigma mu radius current turns) t (tloop_dhz t sigma mu radius current turns).
Proof. exact tloop_hz_time. Qed.

(** ** C73 *)
Theorem C73_field_time_derivative :
  forall t sigma mu moment x y, 0 < t -> 0 < sigma -> 0 < mu -> x <> 0 \/ y <> 0 ->
  is_vderive (fun t => vmd_H t sigma mu moment x y) t (vmd_dH t sigma mu moment x y) /\
  is_vderive (fun t => vmd_B t sigma mu moment x y) t (vmd_dB t sigma mu moment x y).
Proof. intros. split; [apply vmd_time|apply vmd_B_time]; assumption. Qed.
(** the half-space dipole object evaluates these at the horizontal offset, for points of 2 or 3 coordinates *)
Theorem C73_half_space_dipole :
  forall (s : tvmd) (x y z : R) h d b db,
  0 < td_time (tv_med s) -> 0 < td_sigma (tv_med s) -> 0 < td_mu (tv_med s) -> x <> vx (tv_loc s) \/ y <> vy (tv_loc s) ->
  tv_H s [x; y] = Ok h -> tv_dH s [x; y] = Ok d -> tv_B s [x; y] = Ok b -> tv_dB s [x; y] = Ok db ->
  tv_H s [x; y; z] = Ok h /\ tv_dH s [x; y; z] = Ok d /\ tv_B s [x; y; z] = Ok b /\ tv_dB s [x; y; z] = Ok db /\
  b = vscal (td_mu (tv_med s)) h /\
  exists H B : R -> vec3, (forall t, tv_H (tv_at s t) [x; y] = Ok (H t) /\ tv_B (tv_at s t) [x; y] = Ok (B t)) /\
    is_vderive H (td_time (tv_med s)) d /\ is_vderive B (td_time (tv_med s)) db.
Proof.
  intros s x y z h d b db Ht Hs Hm O E1 E2 E3 E4.
  unfold tv_H, tv_dH, tv_B, tv_dB, tv_call in *. cbn [rmap] in *. injection E1 as <-. injection E2 as <-. injection E3 as <-. injection E4 as <-.
  repeat apply conj; try reflexivity.
  exists (fun t => vmd_H t (td_sigma (tv_med s)) (td_mu (tv_med s)) (tv_moment s) (x - vx (tv_loc s)) (y - vy (tv_loc s))).
  exists (fun t => vmd_B t (td_sigma (tv_med s)) (td_mu (tv_med s)) (tv_moment s) (x - vx (tv_loc s)) (y - vy (tv_loc s))).
  assert (O' : x - vx (tv_loc s) <> 0 \/ y - vy (tv_loc s) <> 0) by (destruct O; [left|right]; lra).
  split; [intro t; split; reflexivity|]. split; [apply vmd_time|apply vmd_B_time]; assumption.
Qed.

(** a row of any other length is refused by all four methods *)
Theorem C73_other_rows_are_refused :
  forall (s : tvmd) (row : list R), List.length row <> 2%nat -> List.length row <> 3%nat ->
  tv_H s row = Raise ValueError /\ tv_dH s row = Raise ValueError /\ tv_B s row = Raise ValueError /\ tv_dB s row = Raise ValueError.
Proof.
  intros s row N2 N3. unfold tv_H, tv_dH, tv_B, tv_dB, tv_call. destruct row as [|x [|y [|z [|w r]]]]; cbn in *; try contradiction; auto.
Qed.

(** ** C74 *)
Theorem C74_loop_field_positive_and_decreasing :
  forall sigma mu radius current turns, 0 < sigma -> 0 < mu -> 0 < radius -> 0 < turns * current ->
  (forall t, 0 < t -> 0 < tloop_hz t sigma mu radius current turns) /\
  (forall t t', 0 < t -> t < t' -> tloop_hz t' sigma mu radius current turns < tloop_hz t sigma mu radius current turns) /\
  (forall t, 0 < t -> tloop_dhz t sigma mu radius current turns < 0).
Proof.
  intros sg mu a I n Hs Hm Ha HI. repeat apply conj.
  - intros t Ht. apply loop_positive; assumption.
  - intros t t' Ht L. apply loop_decreasing; assumption.
  - intros t Ht. apply loop_deriv_neg; assumption.
Qed.
(** it starts from the static field n I / (2 a) of the loop, at most linearly in time ... *)
Theorem C74_loop_field_early :
  forall sigma mu radius current turns, 0 < sigma -> 0 < mu -> 0 < radius -> 0 < turns * current ->
  forall t, 0 < t ->
  turns * current / (2 * radius) * (1 - 12 * t / (mu * sigma * radius ^ 2)) <= tloop_hz t sigma mu radius current turns
  < turns * current / (2 * radius).
Proof. exact loop_early. Qed.
(** ... and decays at least as t^(-3/2) *)
Theorem C74_loop_field_late :
  forall sigma mu radius current turns, 0 < sigma -> 0 < mu -> 0 < radius -> 0 < turns * current ->
  forall t, 0 < t ->
  tloop_hz t sigma mu radius current turns <=
  turns * current / (2 * radius) * (8 / (15 * sqrt PI)) * sqrt (mu * sigma * radius ^ 2 / (4 * t)) ^ 3.
Proof. exact loop_late. Qed.
(** the static potential I l n / (4 pi r) is never reached *)
Theorem C74_dipole_potential_bounded :
  forall (s : tedip) (p : vec3),
  0 < td_time (te_med s) /\ 0 < td_sigma (te_med s) /\ 0 < td_mu (te_med s) -> p <> te_loc s ->
  te_current s * te_length s <> 0 -> te_orient s <> vzero ->
  0 < vnorm (te_A s p) < Rabs (te_current s * te_length s) / (4 * PI * vnorm (vsub p (te_loc s))) * vnorm (te_orient s).
Proof. exact te_A_bound. Qed.

(** ** C85: the reference formulas, with rho and theta computed as the tests do *)
Theorem C85_field_agrees :
  forall t sigma mu moment x y, 0 < t -> 0 < sigma -> 0 < mu -> x <> 0 \/ y <> 0 ->
  let rho := sqrt (x ^ 2 + y ^ 2) in
  let th := theta t sigma mu in
  vmd_H t sigma mu moment x y =
  V3 (- hp_from_vert_4_72 moment th rho * (x / rho)) (- hp_from_vert_4_72 moment th rho * (y / rho)) (hz_from_vert_4_69a moment th rho).
Proof. exact ref_radial_h. Qed.
Theorem C85_derivative_agrees :
  forall t sigma mu moment x y, 0 < t -> 0 < sigma -> 0 < mu -> x <> 0 \/ y <> 0 ->
  let rho := sqrt (x ^ 2 + y ^ 2) in
  let th := theta t sigma mu in
  vmd_dH t sigma mu moment x y =
  V3 (- dhp_from_vert_4_74 moment th rho t * (x / rho)) (- dhp_from_vert_4_74 moment th rho t * (y / rho)) (- dhz_from_vert_4_70 moment th rho sigma mu).
Proof. exact ref_radial_dh. Qed.
(** within the reference file, 4.74 is the time derivative of 4.72 but 4.70 is minus that of 4.69a *)
Theorem C85_reference_derivatives :
  forall moment sigma mu rho t, 0 < t -> 0 < sigma -> 0 < mu -> 0 < rho ->
  is_derive (fun t => hp_from_vert_4_72 moment (theta t sigma mu) rho) t (dhp_from_vert_4_74 moment (theta t sigma mu) rho t) /\
  is_derive (fun t => hz_from_vert_4_69a moment (theta t sigma mu) rho) t (- dhz_from_vert_4_70 moment (theta t sigma mu) rho sigma mu).
Proof. intros. split; [apply ref_dhp|apply ref_dhz_sign]; assumption. Qed.
Theorem C85_reference_vertical_derivative_refuted :
  exists moment sigma mu rho t, 0 < t /\ 0 < sigma /\ 0 < mu /\ 0 < rho /\
  ~ is_derive (fun t => hz_from_vert_4_69a moment (theta t sigma mu) rho) t (dhz_from_vert_4_70 moment (theta t sigma mu) rho sigma mu).
Proof.
  exists 1, 4, 1, 1, 1. repeat split; try lra. intro D.
  pose proof (ref_dhz_sign 1 4 1 1 1 ltac:(lra) ltac:(lra) ltac:(lra) ltac:(lra)) as D'.
  apply is_derive_unique in D. apply is_derive_unique in D'. pose proof ref_dhz_nz as N.
  set (F := Derive _ _) in *. clearbody F. lra.
Qed.

(** ** Witnesses: concrete objects meet the hypotheses and have non-zero fields *)
Definition ex_medium : tdem := TD 1 1 1.
Example C69_C71_witness :
  let s := TPW ex_medium 1 (V3 1 0 0) in
  0 < td_sigma (tp_med s) /\ 0 < td_mu (tp_med s) /\ 0 < td_time (tp_med s) /\ vz (tp_orient s) = 0 /\
  tp_amp s <> 0 /\ tp_orient s <> vzero /\
  td_peak_time (tp_med s) 3 = 3 / 2 /\ td_diffusion_distance (TD 2 1 1) = 2 /\
  tp_E s (V3 0 0 1) <> vzero /\ tp_H s (V3 0 0 1) <> vzero.
Proof.
  cbv zeta. cbn. pose proof sqrt_PI_pos. pose proof PI_RGT_0. repeat apply conj; try lra.
  - intro E. apply (f_equal vx) in E. cbn in E. lra.
  - unfold td_peak_time, peak_time; cbn. lra.
  - unfold td_diffusion_distance, diffusion_distance; cbn. replace (2 * 2 / (1 * 1)) with (2 * 2) by field. apply sqrt_square. lra.
  - intro E. apply (f_equal vx) in E. unfold tp_E in E. cbn [tp_amp tp_med tp_orient ex_medium td_time td_mu td_sigma vx vy vz vscal vzero] in E.
    pose proof (exp_pos (- (1 * 1 * 1 ^ 2) / (4 * 1))). rewrite !Rmult_1_r, sqrt_1 in E.
    apply Rmult_integral in E as [E|E]; [|revert E; apply Rinv_neq_0_compat; lra].
    revert E. set (e := exp _). assert (0 < e) by apply exp_pos. clearbody e. intro E. lra.
  - intro E. apply (f_equal vy) in E. unfold tp_H, tp_B, vdiv, vcross in E. cbn [tp_amp tp_med tp_orient ex_medium td_time td_mu td_sigma vx vy vz vscal vzero] in E.
    set (e := exp _) in *. assert (0 < e) by apply exp_pos. clearbody e.
    assert (0 < sqrt (1 * 1 / (PI * 1))) by (apply sqrt_lt_R0, Rdiv_lt_0_compat; lra).
    set (w := sqrt (1 * 1 / (PI * 1))) in *. clearbody w.
    assert (0 < w * e) by (apply Rmult_lt_0_compat; assumption). lra.
Qed.
Example C70_C74_witness :
  let s := TED ex_medium 1 1 (V3 0 0 1) vzero in
  let p := V3 1 0 0 in
  (0 < td_time (te_med s) /\ 0 < td_sigma (te_med s) /\ 0 < td_mu (te_med s)) /\ p <> te_loc s /\
  te_current s * te_length s <> 0 /\ te_orient s <> vzero /\ te_H s p <> vzero /\ te_dH s p <> vzero.
Proof.
  cbv zeta. pose proof sqrt_PI_pos as W. pose proof PI_RGT_0.
  assert (Nq : vnorm (vsub (V3 1 0 0) vzero) = 1) by (apply vnorm_unique; [lra|unfold vnorm2; cbn; ring]).
  assert (Th : td_theta ex_medium = / 2).
  { unfold td_theta, theta, ex_medium; cbn. replace (1 * 1 / (4 * 1)) with (/ 2 * / 2) by field. apply sqrt_square. lra. }
  repeat apply conj; cbn; try lra.
  - intro E. apply (f_equal vx) in E. cbn in E. lra.
  - intro E. apply (f_equal vz) in E. cbn in E. lra.
  - intro E. apply (f_equal vy) in E. rewrite te_H_radial in E. unfold Radial.xfield in E. cbn [te_loc te_orient te_current te_length te_med] in E.
    rewrite Nq in E. unfold kH in E. rewrite Th in E. cbn [vy vscal vcross vsub vx vz vzero] in E.
    pose proof (ploop_pos (/ 2) ltac:(lra)) as P. unfold ploop in P. rewrite !Rmult_1_r in E.
    replace (2 / sqrt PI * / 2) with (2 * / 2 / sqrt PI) in E by (field; lra). set (g := erf (/ 2) - _) in *. clearbody g.
    assert (0 < 1 * 1 / (4 * PI * 1 ^ 2)) by (apply Rdiv_lt_0_compat; lra).
    set (k := 1 * 1 / (4 * PI * 1 ^ 2)) in *. assert (1 / (4 * PI * 1 ^ 2) = k) by (unfold k; f_equal; ring). rewrite ?H1 in E. clearbody k.
    assert (0 < k * g) by (apply Rmult_lt_0_compat; assumption). rewrite Rinv_1 in E. lra.
  - intro E. apply (f_equal vy) in E. rewrite te_dH_radial in E. unfold Radial.xfield in E. cbn [te_loc te_orient te_current te_length te_med] in E.
    rewrite Nq in E. unfold kD in E. rewrite Th in E. cbn [vy vscal vcross vsub vx vz vzero ex_medium td_time] in E.
    set (e := exp _) in *. assert (0 < e) by apply exp_pos. clearbody e.
    assert (X : 0 < / (16 * PI * sqrt PI) * e) by (apply Rmult_lt_0_compat; [apply Rinv_0_lt_compat; nra|assumption]).
    set (w := sqrt PI) in *. clearbody w.
    assert (E2 : - (/ (16 * PI * w) * e) = 0) by (rewrite <- E; field; lra). lra.
Qed.
Example C72_C73_C85_witness :
  0 < tloop_hz 1 1 1 1 1 1 /\ tloop_dbz 1 1 1 1 1 1 < 0 /\
  (exists h d, tv_H (TV ex_medium 1 vzero) [1; 2] = Ok h /\ tv_dH (TV ex_medium 1 vzero) [1; 2] = Ok d) /\
  dhz_from_vert_4_70 1 (theta 1 4 1) 1 4 1 <> 0.
Proof.
  repeat apply conj.
  - apply loop_positive; lra.
  - pose proof (loop_deriv_neg 1 1 1 1 1 ltac:(lra) ltac:(lra) ltac:(lra) ltac:(lra) 1 ltac:(lra)) as N. unfold tloop_dhz in N. lra.
  - do 2 eexists. split; reflexivity.
  - exact ref_dhz_nz.
Qed.
Print Assumptions C69_peak_time.
Print Assumptions C69_diffusion_distance.
Print Assumptions C70_maxwell.
Print Assumptions C70_time_derivatives.
Print Assumptions C70_constitutive.
Print Assumptions C71_faraday.
Print Assumptions C71_ampere.
Print Assumptions C71_diffusion_equation.
Print Assumptions C71_transverse.
Print Assumptions C72_flux_time_derivative.
Print Assumptions C72_field_time_derivative.
Print Assumptions C73_field_time_derivative.
Print Assumptions C73_half_space_dipole.
Print Assumptions C74_loop_field_positive_and_decreasing.
Print Assumptions C74_loop_field_early.
Print Assumptions C74_loop_field_late.
Print Assumptions C74_dipole_potential_bounded.
Print Assumptions C85_field_agrees.
Print Assumptions C85_derivative_agrees.
Print Assumptions C85_reference_derivatives.
Print Assumptions C85_reference_vertical_derivative_refuted.
Print Assumptions C73_other_rows_are_refused.
