(** C118: a short wire is an electric dipole, a long one is a line current. *)
From Coq Require Import String Reals Lra Lia List.
From Coquelicot Require Import Coquelicot.
From Verif Require Import Vec3 Calculus Deriv Integral Numpy Cplx Model_Static Model_FDEM Spec_Static Spec_Wires Proof_Static Proof_Static2 Proof_Line Proof_Line2 Proof_Line3 Proof_LoopFar2 Proof_FDEM3 Proof_FDEM8 Proof_Wires Proof_Wires2.
Import ListNotations.
Open Scope R_scope.

Section Short.
Variables c u p : vec3.
Variable L : R.
Let d := vsub p c.
Let r := vnorm d.
Hypothesis Hu : vnorm u = 1.
Hypothesis HL : 0 < L <= r.

Lemma sh_lo : vsub (vsub c (vscal (L / 2) u)) c = vscal (- (L / 2)) u. Proof. destruct c, u; vring. Qed.
Lemma sh_hi : vsub (vadd c (vscal (L / 2) u)) c = vscal (L / 2) u. Proof. destruct c, u; vring. Qed.
Lemma sh_half k : Rabs k = L / 2 -> vnorm (vscal k u) <= L / 2.
Proof. intros E. rewrite vnorm_scal, Hu, E. lra. Qed.
Lemma sh_within : within (L / 2) c (straight c u L).
Proof.
  unfold within, straight. constructor; [|constructor; [|constructor]]; rewrite ?sh_lo, ?sh_hi; apply sh_half; rewrite ?Rabs_Ropp; apply Rabs_pos_eq; lra.
Qed.
Lemma sh_length : wire_length (straight c u L) = L.
Proof.
  unfold straight. cbn [wire_length]. replace (vsub (vadd c (vscal (L / 2) u)) (vsub c (vscal (L / 2) u))) with (vscal L u) by (destruct c, u; unfold vsub, vadd, vscal; cbn; f_equal; field).
  rewrite vnorm_scal, Hu, Rabs_pos_eq; lra.
Qed.
Lemma sh_area : wire_area c (straight c u L) = vzero.
Proof. unfold straight. cbn [wire_area]. rewrite sh_lo, sh_hi. destruct u; unfold vzero; vring. Qed.
Lemma sh_ends : vsub (endB c p (last (straight c u L) vzero)) (endB c p (hd vzero (straight c u L))) = vscal (L / r ^ 3) (vcross u d).
Proof.
  unfold straight. cbn [last hd]. unfold endB. rewrite sh_lo, sh_hi. fold d. fold r.
  replace (vdot d (vscal (- (L / 2)) u)) with (- vdot d (vscal (L / 2) u)) by (destruct d, u; unfold vdot, vscal; cbn; field).
  unfold Rdiv. generalize (/ r ^ 3) (/ r ^ 5). intros k1 k2. destruct u, d; unfold vsub, vadd, vscal, vcross, vdot; cbn. f_equal; field.
Qed.
Lemma short_V V : is_wire_integral (biot_savart p) (straight c u L) V ->
  vnorm (vsub V (vscal (L / r ^ 3) (vcross u d))) <= L / r ^ 2 * (41 / 4 * (L / r) ^ 2).
Proof.
  intros HV. pose proof (far_wire_B c p (L / 2) ltac:(fold d; fold r; lra) ltac:(fold d; fold r; lra) _ V sh_within ltac:(discriminate) HV) as F. fold d in F. fold r in F.
  rewrite sh_ends, sh_area, sh_length in F. 
  replace (vadd (vscal (L / r ^ 3) (vcross u d)) (dipB c p vzero)) with (vscal (L / r ^ 3) (vcross u d)) in F.
  - eapply Rle_trans; [exact F|]. right. field. lra.
  - replace (dipB c p vzero) with vzero; [symmetry; apply vadd_0_r|]. unfold dipB. fold d. fold r. unfold Rdiv. generalize (/ r ^ 5) (/ r ^ 3). intros k1 k2. destruct d; unfold vzero, vsub, vscal, vdot; cbn. f_equal; ring.
Qed.

Lemma short_F : vnorm (vsub (vsub (vdiv (vsub p (vadd c (vscal (L / 2) u))) (vnorm (vsub p (vadd c (vscal (L / 2) u))) ^ 3)) (vdiv (vsub p (vsub c (vscal (L / 2) u))) (vnorm (vsub p (vsub c (vscal (L / 2) u))) ^ 3)))
    (vscal L (vsub (vscal (3 * vdot u d / r ^ 5) d) (vscal (/ r ^ 3) u)))) <= L / r ^ 3 * (21 * (L / r) ^ 2).
Proof.
  replace (vsub p (vadd c (vscal (L / 2) u))) with (vsub d (vscal (L / 2) u)) by (unfold d; destruct p, c, u; vring).
  replace (vsub p (vsub c (vscal (L / 2) u))) with (vsub d (vscal (- (L / 2)) u)) by (unfold d; destruct p, c, u; vring).
  assert (N1 : vnorm (vscal (L / 2) u) <= L / 2) by (apply sh_half, Rabs_pos_eq; lra).
  assert (N2 : vnorm (vscal (- (L / 2)) u) <= L / 2) by (apply sh_half; rewrite Rabs_Ropp; apply Rabs_pos_eq; lra).
  pose proof (kr_E d _ (L / 2) N1 ltac:(fold r; lra) ltac:(fold r; lra)) as K1. pose proof (kr_E d _ (L / 2) N2 ltac:(fold r; lra) ltac:(fold r; lra)) as K2. fold r in K1, K2.
  assert (X : even2 d (vscal (- (L / 2)) u) = even2 d (vscal (L / 2) u)).
  { unfold even2. rewrite !vnorm_scal, Rabs_Ropp. replace (vdot d (vscal (- (L / 2)) u)) with (- vdot d (vscal (L / 2) u)) by (destruct d, u; unfold vdot, vscal; cbn; field). fold r. field. lra. }
  assert (Y : vdot d (vscal (- (L / 2)) u) = - vdot d (vscal (L / 2) u)) by (destruct d, u; unfold vdot, vscal; cbn; field).
  rewrite X, Y in K2. clear X Y. rewrite !vdiv_scal.
  set (f1 := vscal (/ vnorm (vsub d (vscal (L / 2) u)) ^ 3) (vsub d (vscal (L / 2) u))) in *. set (f2 := vscal (/ vnorm (vsub d (vscal (- (L / 2)) u)) ^ 3) (vsub d (vscal (- (L / 2)) u))) in *.
  set (g1 := vadd _ _) in K1. set (g2 := vadd _ _) in K2.
  assert (G : vsub g1 g2 = vscal L (vsub (vscal (3 * vdot u d / r ^ 5) d) (vscal (/ r ^ 3) u))).
  { unfold g1, g2. unfold Rdiv. generalize (/ r ^ 3) (/ r ^ 5) (even2 d (vscal (L * / 2) u)). intros k1 k2 k3. destruct d, u; unfold vsub, vadd, vscal, vdot; cbn. f_equal; field. }
  rewrite <- G. replace (vsub (vsub f1 f2) (vsub g1 g2)) with (vsub (vsub f1 g1) (vsub f2 g2)) by (destruct f1, f2, g1, g2; vring).
  eapply Rle_trans; [apply vnorm_sub_le|]. apply Rle_trans with (84 * (L / 2) ^ 3 / r ^ 5 + 84 * (L / 2) ^ 3 / r ^ 5); [lra|]. right. field. lra.
Qed.
End Short.

Lemma cvscal_real k v : cvscal (RtoC k) (cvof 1%C v) = cvof 1%C (vscal k v).
Proof. destruct v as [x y z]. unfold cvscal, cvof, vscal; cbn. f_equal; rewrite RtoC_mult; ring. Qed.

Lemma short_B c u p L I sig mu eps qs : vnorm u = 1 -> 0 < L <= vnorm (vsub p c) -> proper_wire (straight c u L) -> every_segment (off_line p) (straight c u L) ->
  let r := vnorm (vsub p c) in
  exists B D, lc_flux_density (LC (straight c u L) I sig mu) p = Ok (Some B) /\ ed_B (ED (FD 0 sig mu eps qs) I L u c) p = cvof 1%C D /\
    vnorm (vsub B D) <= Rabs (mu * I) * L / (4 * PI * r ^ 2) * (41 / 4 * (L / r) ^ 2).
Proof.
  intros Hu HL P O r. pose proof PI_RGT_0 as Pi. assert (Hr : 0 < r) by (unfold r; lra).
  destruct (line_biot_savart (LC (straight c u L) I sig mu) p P O) as (V & HV & HB). cbn [lc_nodes lc_mu lc_current] in HV, HB.
  exists (vscal (mu * I / (4 * PI)) V), (vscal (mu * I / (4 * PI)) (vscal (L / r ^ 3) (vcross u (vsub p c)))). split; [exact HB|]. split.
  - unfold ed_B. rewrite ed_H_zero; [|reflexivity|cbn [ed_loc]; intros E; apply (Rlt_not_eq 0 r Hr); unfold r; rewrite E; replace (vsub c c) with vzero by (destruct c; unfold vzero, vsub; cbn; f_equal; ring); symmetry; apply vnorm_zero].
    cbn [ed_med ed_current ed_length ed_orient ed_loc fd_mu]. rewrite cvscal_real. fold r. f_equal. generalize (vcross u (vsub p c)). intros w. destruct w; unfold vscal; cbn. f_equal; field; lra.
  - pose proof (scaled_near (mu * I / (4 * PI)) _ _ _ (short_V c u p L Hu HL V HV)) as K. rewrite k_abs in K. fold r in K. eapply Rle_trans; [exact K|]. right. field. lra.
Qed.
Lemma short_E c u p L I sig mu eps qs : vnorm u = 1 -> 0 < L <= vnorm (vsub p c) -> 0 < sig ->
  let r := vnorm (vsub p c) in
  exists D, ed_E (ED (FD 0 sig mu eps qs) I L u c) p = cvof 1%C D /\
    vnorm (vsub (lc_electric_field (LC (straight c u L) I sig mu) p) D) <= Rabs I * L / (4 * PI * sig * r ^ 3) * (21 * (L / r) ^ 2).
Proof.
  intros Hu HL Hs r. pose proof PI_RGT_0 as Pi. assert (Hr : 0 < r) by (unfold r; lra).
  exists (vscal (I / (4 * PI * sig)) (vscal L (vsub (vscal (3 * vdot u (vsub p c) / r ^ 5) (vsub p c)) (vscal (/ r ^ 3) u)))). split.
  - rewrite ed_E_zero; [|reflexivity|exact Hs|cbn [ed_loc]; intros E; apply (Rlt_not_eq 0 r Hr); unfold r; rewrite E; replace (vsub c c) with vzero by (destruct c; unfold vzero, vsub; cbn; f_equal; ring); symmetry; apply vnorm_zero].
    cbn [ed_med ed_current ed_length ed_orient ed_loc fd_mu fd_sigma]. unfold static_dipole. fold r. f_equal. generalize (vsub p c). intros v. destruct u, v; unfold vscal, vadd, vsub, vdot; cbn. f_equal; field; lra.
  - assert (Q : lc_electric_field (LC (straight c u L) I sig mu) p = vscal (I / (4 * PI * sig)) (vsub (vdiv (vsub p (vadd c (vscal (L / 2) u))) (vnorm (vsub p (vadd c (vscal (L / 2) u))) ^ 3)) (vdiv (vsub p (vsub c (vscal (L / 2) u))) (vnorm (vsub p (vsub c (vscal (L / 2) u))) ^ 3)))).
    { unfold lc_electric_field. cbn [lc_nodes lc_current lc_sigma n_segments straight length Nat.pred Nat.eqb first_node last_node hd last].
      destruct (vall_eq (vadd c (vscal (L / 2) u)) (vsub c (vscal (L / 2) u))) eqn:X; [|reflexivity]. exfalso.
      unfold vall_eq in X. apply Bool.andb_true_iff in X. destruct X as [X X3]. apply Bool.andb_true_iff in X. destruct X as [X1 X2]. apply Reqb_true in X1, X2, X3.
      cbn in X1, X2, X3. assert (vx u = 0) by nra. assert (vy u = 0) by nra. assert (vz u = 0) by nra. destruct u as [x y z]. cbn in *. subst.
      change (V3 0 0 0) with vzero in Hu. rewrite vnorm_zero in Hu. lra. }
    rewrite Q. pose proof (scaled_near (I / (4 * PI * sig)) _ _ _ (short_F c u p L Hu HL)) as K. fold r in K. eapply Rle_trans; [exact K|].
    assert (0 < / (4 * PI * sig)) by (apply Rinv_0_lt_compat; apply Rmult_lt_0_compat; lra).
    unfold Rdiv at 1. rewrite Rabs_mult, (Rabs_pos_eq (/ (4 * PI * sig))) by lra. right. field. repeat split; lra.
Qed.

(** *** the long wire *)
Lemma far_end x rho : 0 < x -> 0 < rho -> 0 <= 1 - x / sqrt (rho ^ 2 + x ^ 2) <= rho ^ 2 / (2 * x ^ 2).
Proof.
  intros Hx Hrho. pose proof (pow_lt rho 2 Hrho). set (s := sqrt (rho ^ 2 + x ^ 2)).
  assert (S : s * s = rho ^ 2 + x ^ 2) by (apply sqrt_sqrt; nra). assert (0 <= s) by apply sqrt_pos. assert (x < s) by nra.
  replace (1 - x / s) with (rho ^ 2 / (s * (s + x))).
  - split; [apply Rlt_le, Rdiv_lt_0_compat; [lra|nra]|]. apply Rmult_le_compat_l; [lra|]. apply Rinv_le_contravar; nra.
  - replace (rho ^ 2) with (s * s - x * x) by lra. field. lra.
Qed.

Section Long.
Variables c u p : vec3.
Variable L : R.
Let d := vsub p c.
Let h := vdot u d.
Let rho := vnorm (vcross u d).
Hypothesis Hu : vnorm u = 1.
Hypothesis Hrho : 0 < rho.
Hypothesis HL : 2 * Rabs h < L.
Let a := vsub c (vscal (L / 2) u).
Let b := vadd c (vscal (L / 2) u).

Lemma lg_abs : Rabs h < L / 2 /\ - (L / 2) < h < L / 2.
Proof. split; [lra|]. pose proof (Rle_abs h). pose proof (Rle_abs (- h)) as Q. rewrite Rabs_Ropp in Q. lra. Qed.
Lemma lg_L : 0 < L. Proof. pose proof (Rabs_pos h). lra. Qed.
Lemma lg_uu : vdot u u = 1. Proof. rewrite <- vnorm2_dot, <- vnorm_sqr, Hu. ring. Qed.
Lemma lg_dir : udir a b = u.
Proof.
  unfold udir. replace (vsub b a) with (vscal L u) by (unfold a, b; destruct c, u; unfold vsub, vadd, vscal; cbn; f_equal; field).
  rewrite vnorm_scal, Hu, Rabs_pos_eq by (pose proof lg_L; lra). pose proof lg_L. destruct u; unfold vdiv, vscal; cbn. f_equal; field; lra.
Qed.
Lemma lg_pa : vsub p a = vadd d (vscal (L / 2) u). Proof. unfold d, a. destruct p, c, u; vring. Qed.
Lemma lg_pb : vsub p b = vsub d (vscal (L / 2) u). Proof. unfold d, b. destruct p, c, u; vring. Qed.
Lemma lg_Xa : Xc a b a p = L / 2 + h.
Proof. unfold Xc. rewrite lg_dir, lg_pa. transitivity (h + L / 2 * vdot u u); [unfold h; destruct u, d; unfold vdot, vadd, vscal; cbn; ring|rewrite lg_uu; ring]. Qed.
Lemma lg_Xb : Xc a b b p = - (L / 2 - h).
Proof. unfold Xc. rewrite lg_dir, lg_pb. transitivity (h - L / 2 * vdot u u); [unfold h; destruct u, d; unfold vdot, vsub, vscal; cbn; ring|rewrite lg_uu; ring]. Qed.
Lemma lg_norm k : vnorm (vadd d (vscal k u)) = sqrt (rho ^ 2 + (h + k) ^ 2).
Proof.
  unfold vnorm at 1. f_equal. unfold rho. rewrite <- vnorm2_pow. pose proof (lagrange_identity u d) as G. rewrite (vnorm2_dot u), lg_uu in G. fold h in G.
  transitivity (vnorm2 d + 2 * k * h + k * k * vdot u u); [unfold h; destruct d, u; unfold vnorm2, vdot, vadd, vscal; cbn; ring|]. rewrite lg_uu. lra.
Qed.
Lemma lg_na : vnorm (vsub p a) = sqrt (rho ^ 2 + (L / 2 + h) ^ 2).
Proof. rewrite lg_pa, lg_norm. do 3 f_equal. ring. Qed.
Lemma lg_nb : vnorm (vsub p b) = sqrt (rho ^ 2 + (L / 2 - h) ^ 2).
Proof. rewrite lg_pb. replace (vsub d (vscal (L / 2) u)) with (vadd d (vscal (- (L / 2)) u)) by (destruct d, u; vring). rewrite lg_norm. f_equal. ring. Qed.
Lemma lg_cross : vcross u (vsub p a) = vcross u d.
Proof. rewrite lg_pa. destruct u, d; vring. Qed.
Lemma lg_off : every_segment (off_line p) (straight c u L).
Proof.
  split; [|exact I]. unfold off_line. fold a b. replace (vsub b a) with (vscal L u) by (unfold a, b; destruct c, u; unfold vsub, vadd, vscal; cbn; f_equal; field).
  replace (vcross (vscal L u) (vsub p a)) with (vscal L (vcross u d)) by (rewrite lg_pa; destruct u, d; vring).
  intros E. assert (N : vnorm (vscal L (vcross u d)) = 0) by (rewrite E; apply vnorm_zero). rewrite vnorm_scal, Rabs_pos_eq in N by (pose proof lg_L; lra). fold rho in N. pose proof lg_L. nra.
Qed.
Lemma long_B I sig mu : proper_wire (straight c u L) ->
  exists B, lc_flux_density (LC (straight c u L) I sig mu) p = Ok (Some B) /\
    vnorm (vsub B (vscal (mu * I / (2 * PI * rho ^ 2)) (vcross u d))) <= Rabs (mu * I) / (4 * PI * rho) * (rho / (L / 2 - Rabs h)) ^ 2.
Proof.
  intros P. pose proof PI_RGT_0 as Pi. eexists. split; [apply B_value; [exact P|exact lg_off]|]. cbn [lc_mu lc_current lc_nodes straight wsum]. fold a b. rewrite vadd_0_r.
  destruct P as [P _]. fold a b in P. unfold gB. rewrite (perp2_cross a b p P), lg_dir, lg_cross, vnorm2_pow. fold rho.
  unfold tB. rewrite lg_Xa, lg_Xb, lg_na, lg_nb. set (xa := L / 2 + h). set (xb := L / 2 - h). destruct lg_abs as [A1 A2].
  pose proof (far_end xa rho ltac:(unfold xa; lra) Hrho) as Fa. pose proof (far_end xb rho ltac:(unfold xb; lra) Hrho) as Fb.
  set (ca := xa / sqrt (rho ^ 2 + xa ^ 2)) in *. replace (- xb / sqrt (rho ^ 2 + xb ^ 2)) with (- (xb / sqrt (rho ^ 2 + xb ^ 2))) by (unfold Rdiv; ring). set (cb := xb / sqrt (rho ^ 2 + xb ^ 2)) in *.
  set (w := vcross u d) in *.
  replace (vsub _ _) with (vscal (- (mu * I / (4 * PI * rho ^ 2) * ((1 - ca) + (1 - cb)))) w) by (destruct w; unfold vsub, vscal; cbn; f_equal; field; lra).
  rewrite vnorm_scal. fold rho. rewrite Rabs_Ropp, Rabs_mult, (Rabs_pos_eq (1 - ca + (1 - cb))) by lra.
  assert (K : Rabs (mu * I / (4 * PI * rho ^ 2)) = Rabs (mu * I) / (4 * PI * rho ^ 2)).
  { unfold Rdiv. rewrite Rabs_mult, (Rabs_pos_eq (/ _)); [reflexivity|]. apply Rlt_le, Rinv_0_lt_compat. apply Rmult_lt_0_compat; [lra|apply pow_lt, Hrho]. }
  rewrite K. assert (Mp : 0 < L / 2 - Rabs h) by lra. set (q := L / 2 - Rabs h) in *.
  assert (B1 : forall x, q <= x -> rho ^ 2 / (2 * x ^ 2) <= rho ^ 2 / (2 * q ^ 2)).
  { intros x Hx. apply Rmult_le_compat_l; [apply pow2_ge_0|]. apply Rinv_le_contravar; [|apply Rmult_le_compat_l; [lra|apply pow_incr; lra]]. apply Rmult_lt_0_compat; [lra|apply pow_lt, Mp]. }
  pose proof (B1 xa) as Ba. pose proof (B1 xb) as Bb. pose proof (Rle_abs h). pose proof (Rle_abs (- h)) as Q. rewrite Rabs_Ropp in Q.
  specialize (Ba ltac:(unfold q, xa; lra)). specialize (Bb ltac:(unfold q, xb; lra)).
  apply Rle_trans with (Rabs (mu * I) / (4 * PI * rho ^ 2) * (rho ^ 2 / (2 * q ^ 2) + rho ^ 2 / (2 * q ^ 2)) * rho); [|right; field; lra].
  apply Rmult_le_compat_r; [lra|]. apply Rmult_le_compat_l; [rewrite <- K; apply Rabs_pos|]. lra.
Qed.
End Long.
