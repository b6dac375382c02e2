From Coq Require Import Reals Lra Lia List Bool.
From Coquelicot Require Import Coquelicot.
From Verif Require Import Vec3 Numpy Calculus Deriv Integral CurveDeriv Model_Spatial Proof_Spatial Model_Prism Model_Static Spec_Static Proof_Static Proof_Static2.
Import ListNotations.
Open Scope R_scope.

(** *** closed forms of one segment, free of the rotation *)
Definition fz (X r : R) : R := if Reqb (X + r) 0 then (if Rltb X 0 then ln (-2 * X) else X + r) else - ln (X + r).

Lemma prism_fzy_fz x y z : prism_fzy x y z = fz x (vnorm (V3 x y z)).
Proof. reflexivity. Qed.

Definition udir (a b : vec3) : vec3 := vdiv (vsub b a) (vnorm (vsub b a)).

Section Seg.
Variables a b : vec3.
Hypothesis P : proper_segment a b.

Lemma seg_len_pos : 0 < vnorm (vsub b a).
Proof. apply vnorm_pos, vsub_nz. destruct P as [N _]. congruence. Qed.

Lemma udir_unit : vdot (udir a b) (udir a b) = 1.
Proof.
  pose proof seg_len_pos as L. pose proof (vnorm_sqr (vsub b a)) as S. unfold udir. set (l := vnorm (vsub b a)) in *.
  destruct (vsub b a) as [x y z]. unfold vdiv, vdot, vnorm2 in *; cbn [vx vy vz] in *.
  replace (x / l * (x / l) + y / l * (y / l) + z / l * (z / l)) with ((x * x + y * y + z * z) / (l * l)) by (field; lra).
  rewrite <- S. field. lra.
Qed.
Lemma udir_norm : vnorm (udir a b) = 1.
Proof. apply vnorm_unique; [lra|]. change (vnorm2 (udir a b)) with (vdot (udir a b) (udir a b)). rewrite udir_unit; ring. Qed.
Lemma udir_nz : udir a b <> vzero.
Proof. intro E. pose proof udir_norm as N. rewrite E, vnorm_zero in N. lra. Qed.
Lemma seg_vec : vsub b a = vscal (vnorm (vsub b a)) (udir a b).
Proof. pose proof seg_len_pos as L. unfold udir. destruct (vsub b a) as [x y z]. unfold vscal, vdiv; cbn [vx vy vz]. f_equal; field; lra. Qed.

Lemma vunit_id v : vnorm v = 1 -> vunit v = v.
Proof. intro E. unfold vunit. rewrite E. destruct v as [x y z]; cbn [vx vy vz]. f_equal; field. Qed.

Lemma default_tol_pos : 0 < default_tol <= 1 / 2.
Proof.
  unfold default_tol. split; [apply Rinv_0_lt_compat, pow_lt; lra|].
  unfold Rdiv. rewrite Rmult_1_l. apply Rinv_le_contravar; [lra|]. pose proof (pow_le 10 19). change (10 ^ 20) with (10 * 10 ^ 19).
  assert (1 <= 10 ^ 19) by (apply pow_R1_Rle; lra). lra.
Qed.

Lemma rot_ok : exists M, rotation_matrix_v (udir a b) (V3 1 0 0) default_tol = Ok M /\ is_rotation M /\ mvec M (udir a b) = V3 1 0 0.
Proof.
  assert (N1 : vnorm (V3 1 0 0) = 1) by (apply vnorm_unique; [lra|]; unfold vnorm2; cbn; ring).
  assert (Z : V3 1 0 0 <> vzero) by (intro E; unfold vzero in E; apply V3_inj in E; lra).
  destruct (rotation_matrix_v_ok (udir a b) (V3 1 0 0) default_tol udir_nz Z default_tol_pos) as [M [E [R [_ K]]]].
  exists M. split; [exact E|]. split; [exact R|].
  rewrite !vunit_id in K by first [apply udir_norm|exact N1]. apply K.
  destruct P as [_ Q]. cbv zeta in Q. unfold udir. rewrite vdiv_scal. exact Q.
Qed.

Variable M : mat3.
Hypothesis HM : is_rotation M.
Hypothesis HMu : mvec M (udir a b) = V3 1 0 0.

Lemma rot_x v : vx (mvec M v) = vdot (udir a b) v.
Proof.
  rewrite <- (rotation_dot M (udir a b) v HM), HMu. generalize (mvec M v); intros [w1 w2 w3]. unfold vdot; cbn [vx vy vz]. ring.
Qed.
Lemma rot_shift p : vsub (mvec M (vsub p a)) (V3 (vnorm (vsub b a)) 0 0) = mvec M (vsub p b).
Proof.
  replace (V3 (vnorm (vsub b a)) 0 0) with (mvec M (vsub b a)).
  - rewrite <- mvec_sub. f_equal. destruct p, a, b; vring.
  - rewrite seg_vec at 1. rewrite mvec_scal, HMu. unfold vscal; cbn. f_equal; ring.
Qed.
Lemma rot_back_x t : mvec (mtrans M) (V3 t 0 0) = vscal t (udir a b).
Proof.
  rewrite <- (rot_inv_l M (udir a b) HM), HMu, <- mvec_scal. f_equal. unfold vscal; cbn. f_equal; ring.
Qed.
Lemma rot_back_perp v k : mvec (mtrans M) (V3 0 (- k * vz (mvec M v)) (k * vy (mvec M v))) = vscal k (vcross (udir a b) v).
Proof.
  rewrite <- (rot_inv_l M (vscal k (vcross (udir a b) v)) HM). f_equal.
  rewrite mvec_scal, <- rotation_cross, HMu by exact HM. destruct (mvec M v); vring.
Qed.
End Seg.

Definition Xc (a b n p : vec3) : R := vdot (udir a b) (vsub p n).

Lemma seg_A_closed a b p : proper_segment a b ->
  seg_A a b p = Ok (vscal (fz (Xc a b a p) (vnorm (vsub p a)) - fz (Xc a b b p) (vnorm (vsub p b))) (udir a b)).
Proof.
  intro P. destruct (rot_ok a b P) as [M [E [R Hu]]].
  unfold seg_A. cbv zeta. fold (udir a b). rewrite E. cbn [rbind].
  rewrite (rot_shift a b P M Hu p). rewrite !prism_fzy_fz.
  rewrite (rot_back_x a b M R Hu).
  assert (X : forall v, V3 (vx (mvec M v)) (vy (mvec M v)) (vz (mvec M v)) = mvec M v) by (intro v; destruct (mvec M v); reflexivity).
  rewrite !X, !(rotation_norm M) by exact R. rewrite !(rot_x a b M R Hu). unfold Xc. apply f_equal, (f_equal (fun t => vscal t (udir a b))). ring.
Qed.

Definition perp2 (a b p : vec3) : R := vdot (vsub p a) (vsub p a) - Xc a b a p * Xc a b a p.

Lemma perp2_cross a b p : proper_segment a b -> perp2 a b p = vnorm2 (vcross (udir a b) (vsub p a)).
Proof.
  intro P. pose proof (lagrange_identity (udir a b) (vsub p a)) as L.
  rewrite (vnorm2_dot (udir a b)), (udir_unit a b P) in L. unfold perp2, Xc. rewrite vnorm2_dot in L. 
  change (vnorm2 (vsub p a)) with (vdot (vsub p a) (vsub p a)) in L. change (vnorm2 (vcross (udir a b) (vsub p a))) with (vdot (vcross (udir a b) (vsub p a)) (vcross (udir a b) (vsub p a))). lra.
Qed.

Lemma off_line_perp a b p : proper_segment a b -> (off_line p a b <-> 0 < perp2 a b p).
Proof.
  intro P. rewrite (perp2_cross a b p P). unfold off_line.
  rewrite (seg_vec a b P) at 1. pose proof (seg_len_pos a b P) as L. set (l := vnorm (vsub b a)) in *. set (u := udir a b).
  assert (E : vcross (vscal l u) (vsub p a) = vscal l (vcross u (vsub p a))) by (destruct u, (vsub p a); vring).
  rewrite E. set (c := vcross u (vsub p a)). split.
  - intro N. apply vnorm2_pos. intro Z. apply N. rewrite Z. unfold vscal, vzero; cbn; f_equal; ring.
  - intros H Z. destruct c as [x y z]. unfold vscal, vzero in Z; cbn in Z. apply V3_inj in Z. destruct Z as [Z1 [Z2 Z3]].
    assert (x = 0) by nra. assert (y = 0) by nra. assert (z = 0) by nra. subst. unfold vnorm2 in H; cbn in H. lra.
Qed.

(** [seg_B] is finite exactly off the carrier line *)
Definition tB (a b p : vec3) : R := Xc a b b p / vnorm (vsub p b) - Xc a b a p / vnorm (vsub p a).

Lemma seg_B_closed a b p : proper_segment a b -> off_line p a b ->
  seg_B a b p = Ok (Some (vscal (tB a b p / perp2 a b p) (vcross (udir a b) (vsub p a)))).
Proof.
  intros P O. apply (off_line_perp a b p P) in O. destruct (rot_ok a b P) as [M [E [R Hu]]].
  unfold seg_B. cbv zeta. fold (udir a b). rewrite E. cbn [rbind].
  rewrite (rot_shift a b P M Hu p).
  rewrite !(rotation_norm M) by exact R. rewrite !(rot_x a b M R Hu).
  cbn [cartesian_to_cylindrical rbind nth].
  set (v := mvec M (vsub p a)).
  assert (Q : vy v ^ 2 + vz v ^ 2 = perp2 a b p).
  { unfold perp2, Xc. rewrite <- (rot_x a b M R Hu). rewrite <- (rotation_dot M _ _ R). fold v. unfold vdot. ring. }
  destruct (atan2_polar (vy v) (vz v)) as [C S].
  rewrite Q in *. set (rho := sqrt (perp2 a b p)) in *.
  assert (Rp : 0 < rho) by (apply sqrt_lt_R0; exact O).
  assert (Rs : rho * rho = perp2 a b p) by (apply sqrt_sqrt; lra).
  assert (Na : vnorm (vsub p a) <> 0).
  { intro Z. apply vnorm_eq0 in Z. unfold perp2, Xc in O. rewrite Z in O. unfold vdot, vzero in O; cbn in O. nra. }
  assert (Nb : vnorm (vsub p b) <> 0).
  { intro Z. apply vnorm_eq0 in Z.
    assert (A : vsub p a = vsub b a). { destruct p, a, b; unfold vsub, vzero in *; cbn in *. apply V3_inj in Z. destruct Z as [Z1 [Z2 Z3]]. f_equal; lra. }
    rewrite (perp2_cross a b p P), A, (seg_vec a b P) in O.
    assert (CC : vnorm2 (vcross (udir a b) (vscal (vnorm (vsub b a)) (udir a b))) = 0) by (destruct (udir a b); vring). lra. }
  unfold fdiv. destruct (Req_EM_T (vnorm (vsub p a)) 0) as [?|_]; [contradiction|]. cbn [obind].
  destruct (Req_EM_T (vnorm (vsub p b)) 0) as [?|_]; [contradiction|]. cbn [obind].
  destruct (Req_EM_T rho 0) as [?|_]; [lra|]. cbn [obind].
  cbn [cylindrical_to_cartesian_vec length Nat.eqb rbind nth].
  do 2 f_equal. rewrite <- (rot_back_perp a b M R Hu). fold v. fold (Xc a b b p). fold (Xc a b a p).
  f_equal. rewrite <- Rs. unfold tB. set (th := atan2 (vz v) (vy v)) in *. clearbody th. f_equal.
  - rewrite <- S. field. repeat split; lra.
  - rewrite <- C. field. repeat split; lra.
Qed.

Lemma seg_B_none a b p : proper_segment a b -> ~ off_line p a b -> seg_B a b p = Ok None.
Proof.
  intros P O. rewrite (off_line_perp a b p P) in O. destruct (rot_ok a b P) as [M [E [R Hu]]].
  unfold seg_B. cbv zeta. fold (udir a b). rewrite E. cbn [rbind].
  cbn [cartesian_to_cylindrical rbind nth].
  set (v := mvec M (vsub p a)).
  assert (Q : vy v ^ 2 + vz v ^ 2 = perp2 a b p).
  { unfold perp2, Xc. rewrite <- (rot_x a b M R Hu). rewrite <- (rotation_dot M _ _ R). fold v. unfold vdot. ring. }
  rewrite Q. assert (Z : sqrt (perp2 a b p) = 0). { apply sqrt_neg_0. lra. }
  rewrite Z. unfold fdiv at 3. destruct (Req_EM_T 0 0) as [_|?]; [|contradiction].
  unfold fdiv. destruct (Req_EM_T _ 0); cbn [obind]; [reflexivity|]. destruct (Req_EM_T _ 0); reflexivity.
Qed.

(** *** line integrals over a segment *)
Lemma on_seg_diff a b p s : proper_segment a b ->
  vsub p (on_seg a b s) = vsub (vsub p a) (vscal (s * vnorm (vsub b a)) (udir a b)).
Proof.
  intro P. unfold on_seg. rewrite (seg_vec a b P) at 1. generalize (udir a b) (vnorm (vsub b a)). intros u l. destruct p, a, u; vring.
Qed.

Section SegInt.
Variables a b p : vec3.
Hypothesis P : proper_segment a b.
Let l := vnorm (vsub b a).
Let u := udir a b.
Let X0 := Xc a b a p.
Let rho2 := perp2 a b p.
Let f (s : R) := X0 - s * l.
Let Rs (s : R) := vnorm (vsub p (on_seg a b s)).

Lemma seg_R s : Rs s = sqrt (rho2 + f s * f s).
Proof.
  unfold Rs, vnorm. f_equal. rewrite (on_seg_diff a b p s P). fold l. fold u.
  pose proof (udir_unit a b P) as U. fold u in U. unfold rho2, perp2, f, X0, Xc. fold u.
  set (d := vsub p a). destruct d as [x y z], u as [u1 u2 u3]. unfold vnorm2, vdot, vsub, vscal in *; cbn [vx vy vz] in *.
  match goal with |- ?L = ?Rr => assert (E : L - Rr = s * l * (s * l) * (u1 * u1 + u2 * u2 + u3 * u3 - 1)) by ring end.
  rewrite U in E. lra.
Qed.
Lemma rho2_nonneg : 0 <= rho2.
Proof. unfold rho2. rewrite (perp2_cross a b p P). apply vnorm2_nonneg. Qed.
Lemma f_0 : f 0 = Xc a b a p. Proof. unfold f, X0. ring. Qed.
Lemma f_1 : f 1 = Xc a b b p.
Proof.
  unfold f, X0, Xc. pose proof (udir_unit a b P) as U. fold u in U. fold u.
  replace (vdot u (vsub p b)) with (vdot u (vsub p a) - vdot u (vsub b a)) by (destruct u, p, a, b; vring).
  rewrite (seg_vec a b P) at 1. fold l. fold u.
  replace (vdot u (vscal l u)) with (l * vdot u u) by (destruct u; vring). rewrite U. ring.
Qed.
Lemma R_0 : Rs 0 = vnorm (vsub p a).
Proof. unfold Rs, on_seg. do 2 f_equal. destruct a, b; vring. Qed.
Lemma R_1 : Rs 1 = vnorm (vsub p b).
Proof. unfold Rs, on_seg. do 2 f_equal. destruct a, b; vring. Qed.

Lemma f_deriv s : is_derive f s (- l).
Proof. unfold f. eapply is_derive_eq; [der|ring]. Qed.

Lemma R_deriv s : 0 < Rs s -> is_derive Rs s (- l * f s / Rs s).
Proof.
  intro H. apply (D_ext (fun s => sqrt (rho2 + f s * f s))). { intro t; symmetry; apply seg_R. }
  rewrite seg_R in *. pose proof (f_deriv s).
  assert (0 < rho2 + f s * f s). { destruct (Rle_lt_dec (rho2 + f s * f s) 0) as [Q|Q]; [|exact Q]. rewrite (sqrt_neg_0 _ Q) in H. lra. }
  eapply is_derive_eq; [der; lra|]. field. lra.
Qed.

Lemma R_sqr s : Rs s * Rs s = rho2 + f s * f s.
Proof. rewrite seg_R. apply sqrt_sqrt. pose proof rho2_nonneg. nra. Qed.
Lemma R_nonneg s : 0 <= Rs s. Proof. apply vnorm_nonneg. Qed.

Lemma seg_int_B : 0 < rho2 -> is_RInt (fun s => l / Rs s ^ 3) 0 1 (- (tB a b p) / rho2).
Proof.
  intro H.
  assert (Rp : forall s, 0 < Rs s) by (intro s; pose proof (R_sqr s); pose proof (R_nonneg s); nra).
  assert (D : forall s, is_derive (fun s => - (f s / Rs s) / rho2) s (l / Rs s ^ 3)).
  { intro s. pose proof (R_deriv s (Rp s)) as D1. pose proof (f_deriv s) as D2. pose proof (Rp s) as Hs. pose proof (R_sqr s) as Q.
    eapply is_derive_eq; [der; lra|]. rewrite Rmult_0_r, Rminus_0_r.
    set (r := Rs s) in *. set (g := f s) in *. assert (E : rho2 = r * r - g * g) by lra. clearbody r g.
    transitivity (l * (r * r - g * g) / rho2 / r ^ 3); [field; lra|]. rewrite <- E. field. lra. }
  replace (- tB a b p / rho2) with (- (f 1 / Rs 1) / rho2 - - (f 0 / Rs 0) / rho2).
  - apply (FTC (fun s => - (f s / Rs s) / rho2)); [lra| |].
    + intros s _. apply D.
    + intros s _. pose proof (R_deriv s (Rp s)) as D1. pose proof (Rp s) as Hs.
      apply (ex_derive_continuous (fun s => l / Rs s ^ 3)). eexists. der. apply nz_pow; exact Hs.
  - rewrite f_0, f_1, R_0, R_1. unfold tB. field. repeat split; try lra; rewrite <- ?R_0, <- ?R_1; apply Rgt_not_eq, Rp.
Qed.

Lemma seg_int_A : off_segment p a b ->
  is_RInt (fun s => l / Rs s) 0 1 (fz (Xc a b b p) (vnorm (vsub p b)) - fz (Xc a b a p) (vnorm (vsub p a))).
Proof.
  intro O. rewrite <- f_0, <- f_1, <- R_0, <- R_1.
  pose proof (seg_len_pos a b P) as L. fold l in L.
  assert (Rp : forall s, 0 <= s <= 1 -> 0 < Rs s).
  { intros s Hs. apply vnorm_pos, vsub_nz. apply O; exact Hs. }
  assert (C : forall s, 0 <= s <= 1 -> continuous (fun s => l / Rs s) s).
  { intros s Hs. pose proof (R_deriv s (Rp s Hs)) as D1. pose proof (Rp s Hs) as H.
    apply (ex_derive_continuous (fun s => l / Rs s)). eexists. der. lra. }
  assert (F : forall g : R -> R, (forall s, 0 <= s <= 1 -> fz (f s) (Rs s) = g s) -> (forall s, 0 <= s <= 1 -> is_derive g s (l / Rs s)) ->
             is_RInt (fun s => l / Rs s) 0 1 (fz (f 1) (Rs 1) - fz (f 0) (Rs 0))).
  { intros g E D. rewrite (E 1), (E 0) by lra. apply FTC; [lra|exact D|exact C]. }
  destruct (Rle_lt_or_eq_dec _ _ rho2_nonneg) as [Z|Z].
  - assert (S : forall s, 0 < f s + Rs s). { intro s. pose proof (R_sqr s). pose proof (R_nonneg s). nra. }
    apply (F (fun s => - ln (f s + Rs s))).
    + intros s _. unfold fz. destruct (Reqb (f s + Rs s) 0) eqn:Q; [apply Reqb_true in Q; specialize (S s); lra|reflexivity].
    + intros s Hs. pose proof (R_deriv s (Rp s Hs)) as D1. pose proof (f_deriv s) as D2. specialize (Rp s Hs). specialize (S s).
      eapply is_derive_eq; [der; exact S|]. field. lra.
  - assert (Q : forall s, Rs s * Rs s = f s * f s) by (intro s; rewrite R_sqr; lra).
    assert (Nz : forall s, 0 <= s <= 1 -> f s <> 0). { intros s Hs E. specialize (Q s). rewrite E in Q. specialize (Rp s Hs). nra. }
    destruct (Rlt_le_dec 0 (f 1)) as [G|G].
    + assert (S : forall s, 0 <= s <= 1 -> 0 < f s). { intros s Hs. unfold f in *. nra. }
      assert (E : forall s, 0 <= s <= 1 -> Rs s = f s). { intros s Hs. specialize (S s Hs). specialize (Rp s Hs). specialize (Q s). nra. }
      apply (F (fun s => - ln (2 * f s))).
      * intros s Hs. specialize (S s Hs). unfold fz. rewrite (E s Hs). destruct (Reqb (f s + f s) 0) eqn:W; [apply Reqb_true in W; lra|]. do 2 f_equal; ring.
      * intros s Hs. pose proof (f_deriv s) as D2. specialize (S s Hs). rewrite (E s Hs). eapply is_derive_eq; [der; lra|]. field. lra.
    + assert (G1 : f 1 < 0). { pose proof (Nz 1). lra. }
      assert (G0 : f 0 < 0).
      { destruct (Rlt_le_dec (f 0) 0) as [W|W]; [exact W|exfalso].
        apply (Nz (X0 / l)); [|unfold f; field; lra].
        unfold f in *. split; [apply Rmult_le_pos; [lra|left; apply Rinv_0_lt_compat; lra]|].
        apply (Rmult_le_reg_r l); [lra|]. unfold Rdiv. rewrite Rmult_assoc, Rinv_l by lra. lra. }
      assert (S : forall s, 0 <= s <= 1 -> f s < 0). { intros s Hs. unfold f in *. nra. }
      assert (E : forall s, 0 <= s <= 1 -> Rs s = - f s). { intros s Hs. specialize (S s Hs). specialize (Rp s Hs). specialize (Q s). nra. }
      apply (F (fun s => ln (-2 * f s))).
      * intros s Hs. specialize (S s Hs). unfold fz. rewrite (E s Hs). rewrite (proj2 (Reqb_true _ _)) by ring. rewrite (proj2 (Rltb_true _ _) S). reflexivity.
      * intros s Hs. pose proof (f_deriv s) as D2. specialize (S s Hs). rewrite (E s Hs). eapply is_derive_eq; [der; lra|]. field. lra.
Qed.

Lemma seg_biot_savart : off_line p a b ->
  is_vec_RInt (fun s => biot_savart p (vsub b a) (on_seg a b s)) (vscal (- tB a b p / rho2) (vcross u (vsub p a))).
Proof.
  intro O. apply (off_line_perp a b p P) in O. pose proof (seg_int_B O) as K.
  set (c := vcross u (vsub p a)).
  assert (E : forall s, biot_savart p (vsub b a) (on_seg a b s) = vscal (l / Rs s ^ 3) c).
  { intro s. unfold biot_savart. fold (Rs s).
    replace (vcross (vsub b a) (vsub p (on_seg a b s))) with (vscal l c).
    - unfold vscal; cbn [vx vy vz]. f_equal; unfold Rdiv; ring.
    - rewrite (on_seg_diff a b p s P). fold l u. rewrite (seg_vec a b P) at 1. fold l u. unfold c. destruct u, (vsub p a); vring. }
  unfold is_vec_RInt. refine (conj _ (conj _ _)); (eapply is_RInt_ext; [intros s _; rewrite E; reflexivity|]); unfold vscal; cbn [vx vy vz];
  match goal with |- is_RInt (fun _ => _ * ?k) _ _ _ => 
    apply (is_RInt_ext (fun s => k * (l / Rs s ^ 3))); [intros s _; apply Rmult_comm|]; rewrite Rmult_comm; apply (is_RInt_scal (fun s => l / Rs s ^ 3) 0 1 k _ K) end.
Qed.

Lemma seg_dl_over_r : off_segment p a b ->
  is_vec_RInt (fun s => dl_over_r p (vsub b a) (on_seg a b s))
    (vscal (fz (Xc a b b p) (vnorm (vsub p b)) - fz (Xc a b a p) (vnorm (vsub p a))) u).
Proof.
  intro O. pose proof (seg_int_A O) as K.
  assert (E : forall s, dl_over_r p (vsub b a) (on_seg a b s) = vscal (l / Rs s) u).
  { intro s. unfold dl_over_r. fold (Rs s). rewrite (seg_vec a b P) at 1. fold l u. destruct u; unfold vscal; cbn [Vec3.vx Vec3.vy Vec3.vz]. f_equal; unfold Rdiv; ring. }
  unfold is_vec_RInt. refine (conj _ (conj _ _)); (eapply is_RInt_ext; [intros s _; rewrite E; reflexivity|]); unfold vscal; cbn [vx vy vz];
  match goal with |- is_RInt (fun _ => _ * ?k) _ _ _ => 
    apply (is_RInt_ext (fun s => k * (l / Rs s))); [intros s _; apply Rmult_comm|]; rewrite Rmult_comm; apply (is_RInt_scal (fun s => l / Rs s) 0 1 k _ K) end.
Qed.
End SegInt.
