(** Proofs for the integral laws, part 3: the axis of a loop and the long straight wire. *)
From Coq Require Import Reals Lra Lia List Bool String.
From Coquelicot Require Import Coquelicot.
From Verif Require Import Vec3 Calculus Deriv Integral Numpy Spec_Static Spec_Loop Spec_Flux Proof_Flux.
From Verif Require Import Model_Static Proof_Static2 Proof_Static3 Proof_Line Proof_Line2 Props_Loop.
Import ListNotations.
Open Scope R_scope.

Lemma axis_limit k x : 0 <= k -> is_lim (fun L => (L + x) / sqrt ((L + x) ^ 2 + k)) p_infty 1.
Proof.
  intro K. set (r := sqrt k). assert (Rp : 0 <= r) by apply sqrt_pos. assert (RR : r * r = k) by (apply sqrt_sqrt; exact K).
  apply (is_lim_le_le_loc (fun L => 1 - r / (L + x)) (fun _ => 1)).
  - exists (- x). intros L HL. assert (P : 0 < L + x) by lra. set (y := L + x) in *.
    assert (Q : 0 < y ^ 2 + k) by nra. pose proof (sqrt_lt_R0 _ Q) as S. pose proof (sqrt_sqrt _ (Rlt_le _ _ Q)) as SS. set (s := sqrt (y ^ 2 + k)) in *.
    assert (A : y <= s) by nra. assert (B : s <= y + r) by nra.
    split.
    + apply (Rmult_le_reg_r (y * s)); [nra|]. replace (y / s * (y * s)) with (y * y) by (field; lra). replace ((1 - r / y) * (y * s)) with ((y - r) * s) by (field; lra).
      destruct (Rle_lt_dec y r); nra.
    + apply (Rmult_le_reg_r s); [exact S|]. replace (y / s * s) with y by (field; lra). lra.
  - replace (Finite 1) with (Rbar_minus 1 0) by (cbn; f_equal; ring).
    apply is_lim_minus'; [apply is_lim_const|].
    replace (Finite 0) with (Rbar_mult r 0) by (cbn; f_equal; ring). unfold Rdiv.
    apply is_lim_scal_l. replace (Finite 0) with (Rbar_inv p_infty) by reflexivity.
    apply is_lim_inv; [|discriminate]. apply (is_lim_plus _ _ _ p_infty x); [apply is_lim_id|apply is_lim_const|reflexivity].
  - apply is_lim_const.
Qed.

Lemma axis_der a z : 0 < a -> is_derive (fun z => z / sqrt (a ^ 2 + z ^ 2)) z (a ^ 2 / sqrt (a ^ 2 + z ^ 2) ^ 3).
Proof.
  intro H. assert (Q : 0 < a ^ 2 + z ^ 2) by nra. pose proof (sqrt_lt_R0 _ Q) as S. pose proof (sqrt_sqrt _ (Rlt_le _ _ Q)) as SS.
  eapply is_derive_eq; [der; [exact Q|lra]|]. set (s := sqrt _) in *. eqR. cbn [INR pred].
  transitivity ((s * s - z ^ 2) / s ^ 3); [field; lra|]. rewrite SS. f_equal. ring.
Qed.

Lemma loop_ampere s : 0 < cl_radius s -> proper_axis (cl_orient s) ->
  exists b : R -> vec3,
    (forall z, loop_flux_density s "cartesian" (along (cl_loc s) z (cl_orient s)) = Ok (b z)) /\
    (forall L, 0 <= L -> is_RInt (fun z => vdot (b z) (cl_orient s)) (- L) L (cl_mu s * cl_current s * (L / sqrt (cl_radius s ^ 2 + L ^ 2)))) /\
    is_lim (fun L => RInt (fun z => vdot (b z) (cl_orient s)) (- L) L) p_infty (cl_mu s * cl_current s).
Proof.
  intros H A. set (a := cl_radius s) in *. set (k := cl_mu s * cl_current s).
  set (b := fun z => vscal (k * a ^ 2 / (2 * sqrt (a ^ 2 + z ^ 2) ^ 3)) (cl_orient s)).
  assert (U : vdot (cl_orient s) (cl_orient s) = 1) by (destruct A as [A _]; rewrite <- vnorm2_dot, <- vnorm_sqr, A; ring).
  assert (I : forall L, 0 <= L -> is_RInt (fun z => vdot (b z) (cl_orient s)) (- L) L (k * (L / sqrt (a ^ 2 + L ^ 2)))).
  { intros L HL. replace (k * (L / sqrt (a ^ 2 + L ^ 2))) with (k / 2 * (L / sqrt (a ^ 2 + L ^ 2)) - k / 2 * (- L / sqrt (a ^ 2 + (- L) ^ 2))).
    - apply (is_RInt_ext (fun z => k / 2 * (a ^ 2 / sqrt (a ^ 2 + z ^ 2) ^ 3))).
      + intros z _. unfold b. replace (vdot (vscal _ _) _) with (k * a ^ 2 / (2 * sqrt (a ^ 2 + z ^ 2) ^ 3) * vdot (cl_orient s) (cl_orient s)) by (destruct (cl_orient s); vunf; ring).
        rewrite U. eqR. assert (0 < sqrt (a ^ 2 + z ^ 2)) by (apply sqrt_lt_R0; nra). field. lra.
      + apply (FTC (fun z => k / 2 * (z / sqrt (a ^ 2 + z ^ 2)))); [lra| |].
        * intros z _. apply D_scal. apply axis_der; exact H.
        * intros z _. assert (Q : 0 < a ^ 2 + z ^ 2) by nra. pose proof (sqrt_lt_R0 _ Q). eapply ex_derive_cont. der; [exact Q|apply pow_nonzero; lra].
    - replace ((- L) ^ 2) with (L ^ 2) by ring. unfold Rdiv. field. apply Rgt_not_eq. apply sqrt_lt_R0. nra. }
  exists b. split; [|split; [exact I|]].
  - intro z. apply (C42_on_the_axis s z H A).
  - apply (is_lim_ext_loc (fun L => k * ((L + 0) / sqrt ((L + 0) ^ 2 + a ^ 2)))).
    + exists 0. intros L HL. symmetry. rewrite (is_RInt_unique _ _ _ _ (I L (Rlt_le _ _ HL))). rewrite Rplus_0_r, (Rplus_comm (a ^ 2)). reflexivity.
    + replace (Finite k) with (Rbar_mult k 1) by (cbn; f_equal; ring). apply is_lim_scal_l. apply axis_limit. nra.
Qed.

(** ** The long straight wire *)
Section LongWire.
  Variables (u c p : vec3).
  Hypothesis (PU : proper_direction u).
  Let x := vdot u (vsub p c).
  Let w := vcross u (vsub p c).
  Hypothesis (OFF : w <> vzero).
  Variable L : R.
  Hypothesis (HL : 0 < L).
  Let a := along c (- L) u.
  Let b := along c L u.

  Lemma long_vec : vsub b a = vscal (2 * L) u.
  Proof. unfold a, b, along. destruct c, u; vring. Qed.
  Lemma long_norm : vnorm (vsub b a) = 2 * L.
  Proof.
    rewrite long_vec, vnorm_scal. unfold vnorm. rewrite vnorm2_dot, (proj1 PU), sqrt_1, Rabs_pos_eq by lra. ring.
  Qed.
  Lemma long_udir : udir a b = u.
  Proof. unfold udir. rewrite long_norm, long_vec. destruct u as [ux uy uz]. unfold vdiv, vscal; cbn [vx vy vz]. f_equal; field; lra. Qed.
  Lemma long_proper : proper_segment a b.
  Proof.
    split.
    - intro E. pose proof long_norm as N. rewrite E in N. replace (vsub b b) with vzero in N by (destruct b; vring). rewrite vnorm_zero in N. lra.
    - cbv zeta. replace (vscal (/ vnorm (vsub b a)) (vsub b a)) with u; [exact (proj2 PU)|].
      rewrite long_norm, long_vec. destruct u as [ux uy uz]. unfold vscal; cbn [vx vy vz]. f_equal; field; lra.
  Qed.
  Lemma long_cross d : vcross u (vsub p (along c d u)) = w.
  Proof. unfold w, along. destruct u, p, c; vring. Qed.
  Lemma long_off : off_line p a b.
  Proof.
    unfold off_line. rewrite long_vec. intro E. apply OFF. rewrite <- (long_cross (- L)). fold a.
    assert (X : vcross (vscal (2 * L) u) (vsub p a) = vscal (2 * L) (vcross u (vsub p a))) by (destruct u, (vsub p a); vring).
    rewrite X in E. destruct (vcross u (vsub p a)) as [e f g]. unfold vscal, vzero in E; cbn [vx vy vz] in E. apply V3_inj in E. destruct E as [E1 [E2 E3]].
    apply vec3_eq; cbn; nra.
  Qed.
  Lemma long_X d : vdot u (vsub p (along c d u)) = x - d.
  Proof.
    assert (E : vdot u (vsub p (along c d u)) = vdot u (vsub p c) - d * vdot u u) by (unfold along; destruct u, p, c; vunf; ring).
    rewrite E, (proj1 PU). unfold x. ring.
  Qed.
  Lemma long_r d : vnorm (vsub p (along c d u)) = sqrt ((x - d) ^ 2 + vnorm2 w).
  Proof.
    unfold vnorm. f_equal. pose proof (lagrange_identity u (vsub p (along c d u))) as G. rewrite long_cross, long_X in G.
    rewrite (vnorm2_dot u), (proj1 PU) in G. rewrite ?(vnorm2_dot w) in *. lra.
  Qed.
  Lemma long_perp : perp2 a b p = vnorm2 w.
  Proof. rewrite (perp2_cross a b p long_proper), long_udir. unfold a. rewrite long_cross. reflexivity. Qed.

  Lemma long_B I sigma mu : lc_flux_density (LC [a; b] I sigma mu) p =
    Ok (Some (vscal (mu * I / (4 * PI * vnorm2 w) * ((L + x) / sqrt ((L + x) ^ 2 + vnorm2 w) + (L + - x) / sqrt ((L + - x) ^ 2 + vnorm2 w))) w)).
  Proof.
    rewrite (B_value (LC [a; b] I sigma mu) p); [|split; [exact long_proper|exact Logic.I]|split; [exact long_off|exact Logic.I]].
    cbn [lc_mu lc_current lc_nodes wsum]. unfold gB. rewrite long_perp, long_udir. unfold a at 2; rewrite long_cross. unfold tB, Xc. rewrite long_udir.
    unfold a, b. rewrite !long_X, !long_r. pose proof (vnorm2_pos w OFF) as P. pose proof PI_RGT_0.
    replace (x - - L) with (L + x) by ring. replace ((x - L) ^ 2) with ((L + - x) ^ 2) by ring. 
    pose proof (pow2_ge_0 (L + x)) as P1. pose proof (pow2_ge_0 (L + - x)) as P2.
    assert (S1 : 0 < sqrt ((L + x) ^ 2 + vnorm2 w)) by (apply sqrt_lt_R0; lra). assert (S2 : 0 < sqrt ((L + - x) ^ 2 + vnorm2 w)) by (apply sqrt_lt_R0; lra).
    set (s1 := sqrt _) in *. set (s2 := sqrt ((L + - x) ^ 2 + vnorm2 w)) in *. set (n2 := vnorm2 w) in *. clearbody n2 s1 s2 x. clear OFF P1 P2. clearbody w. destruct w as [wx wy wz].
    unfold vadd, vscal, vzero; cbn [vx vy vz]. do 2 f_equal. f_equal; field; repeat split; lra.
  Qed.
End LongWire.

Lemma long_wire I sigma mu u c p : proper_direction u -> vcross u (vsub p c) <> vzero ->
  let w := vcross u (vsub p c) in
  exists B : R -> vec3,
    (forall L, 0 < L -> lc_flux_density (LC [along c (- L) u; along c L u] I sigma mu) p = Ok (Some (B L))) /\
    let B0 := vscal (mu * I / (2 * PI * vnorm2 w)) w in
    is_lim (fun L => vx (B L)) p_infty (vx B0) /\ is_lim (fun L => vy (B L)) p_infty (vy B0) /\ is_lim (fun L => vz (B L)) p_infty (vz B0).
Proof.
  intros PU OFF w. pose proof PI_RGT_0. pose proof (vnorm2_pos _ OFF) as P. fold w in P.
  set (x := vdot u (vsub p c)).
  set (g := fun L => mu * I / (4 * PI * vnorm2 w) * ((L + x) / sqrt ((L + x) ^ 2 + vnorm2 w) + (L + - x) / sqrt ((L + - x) ^ 2 + vnorm2 w))).
  exists (fun L => vscal (g L) w). split.
  - intros L HL. exact (long_B u c p PU OFF L HL I sigma mu).
  - assert (G : is_lim g p_infty (mu * I / (2 * PI * vnorm2 w))).
    { replace (Finite (mu * I / (2 * PI * vnorm2 w))) with (Rbar_mult (mu * I / (4 * PI * vnorm2 w)) (Rbar_plus 1 1)) by (cbn; f_equal; field; split; lra).
      unfold g. apply is_lim_scal_l. apply is_lim_plus'; apply axis_limit; lra. }
    cbv zeta. unfold vscal; cbn [vx vy vz].
    repeat split; match goal with |- is_lim _ _ (Finite (?k * ?y)) => replace (Finite (k * y)) with (Rbar_mult k y) by reflexivity; apply (is_lim_scal_r g y p_infty); exact G end.
Qed.
