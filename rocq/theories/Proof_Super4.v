(** Prisms as superpositions at every outside point, and the magnetic prism (C111). *)
From Coq Require Import Reals Lra Psatz.
From Coquelicot Require Import Coquelicot.
From Verif Require Import Vec3 Calculus Deriv Integral TripleParam Model_Gravity Model_Static Model_Prism Spec_Prism Spec_Super
  Proof_Prism Proof_Prism2 Proof_Prism3 Proof_Prism4 Proof_Far Proof_Super Proof_Super2 Proof_Super3.
Open Scope R_scope.

Definition diag (p : vec3) (t : R) : vec3 := V3 (vx p - t) (vy p - t) (vz p - t).
Lemma diag_0 p : diag p 0 = p.
Proof. apply vec3_eq; cbn; ring. Qed.
Lemma diag_norm p t : vnorm (vsub (diag p t) p) <= 3 * Rabs t.
Proof.
  eapply Rle_trans; [apply norm_le_l1|]. cbn. replace (vx p - t - vx p) with (- t) by ring. replace (vy p - t - vy p) with (- t) by ring.
  replace (vz p - t - vz p) with (- t) by ring. rewrite Rabs_Ropp. lra.
Qed.
Lemma outside_apart b p : ordered b -> outside b p -> apart (ax b p) (zx b p) \/ apart (ay b p) (zy b p) \/ apart (az b p) (zz b p).
Proof. intros (A & B & C) O. unfold apart, ax, zx, ay, zy, az, zz. destruct O as [[H|H]|[[H|H]|[H|H]]]; lra. Qed.

Section Evals.
Variables (b : box) (p : vec3) (f : R -> R -> R -> R).
Lemma eval0_rc : rc (moved f (ax b p) (zx b p) (ay b p) (zy b p) (az b p) (zz b p)) -> rc (fun t => eval_def_int b f (diag p t) 0).
Proof.
  apply (rc_ext 1); [lra|]. intros t _. rewrite eval0. unfold moved, ax, zx, ay, zy, az, zz, diag; cbn [vx vy vz].
  f_equal; ring.
Qed.
Lemma eval1_rc : rc (moved f (ay b p) (zy b p) (az b p) (zz b p) (ax b p) (zx b p)) -> rc (fun t => eval_def_int b f (diag p t) 1).
Proof.
  apply (rc_ext 1); [lra|]. intros t _. rewrite eval1. unfold moved, csum, ax, zx, ay, zy, az, zz, diag; cbn [vx vy vz].
  assert (E : forall u v, u - (v - t) = u - v + t) by (intros; ring). rewrite !E. ring.
Qed.
Lemma eval2_rc : rc (moved f (az b p) (zz b p) (ax b p) (zx b p) (ay b p) (zy b p)) -> rc (fun t => eval_def_int b f (diag p t) 2).
Proof.
  apply (rc_ext 1); [lra|]. intros t _. rewrite eval2. unfold moved, csum, ax, zx, ay, zy, az, zz, diag; cbn [vx vy vz].
  assert (E : forall u v, u - (v - t) = u - v + t) by (intros; ring). rewrite !E. ring.
Qed.
End Evals.

Lemma fzy_eval_rc b p : ordered b -> outside b p -> rc (fun t => eval_def_int b prism_fzy (diag p t) 0).
Proof.
  intros O Q. pose proof (outside_apart b p O Q) as A.
  eapply (rc_ext 1); [lra| |apply (fzx_csum_rc (ay b p) (zy b p) (ax b p) (zx b p) (az b p) (zz b p)); tauto].
  intros t _. rewrite eval0. unfold moved, csum. rewrite !fzy_fzx. unfold ax, zx, ay, zy, az, zz, diag; cbn [vx vy vz].
  assert (E : forall u v, u - (v - t) = u - v + t) by (intros; ring). rewrite !E. ring.
Qed.

(** ** extending an integral formula to the planes of the faces *)
Lemma off_faces_diag b p : exists d, 0 < d /\ forall t, 0 < t < d -> off_faces b (diag p t).
Proof.
  assert (K : forall a c, exists d, 0 < d /\ forall t, 0 < t < d -> a - t <> c).
  { intros a c. destruct (Rle_lt_dec a c) as [L|L].
    - exists 1. split; [lra|]. intros; lra.
    - exists (a - c). split; [lra|]. intros; lra. }
  destruct (K (vx p) (vx (b_min b))) as (d1 & D1 & H1). destruct (K (vx p) (vx (b_max b))) as (d2 & D2 & H2).
  destruct (K (vy p) (vy (b_min b))) as (d3 & D3 & H3). destruct (K (vy p) (vy (b_max b))) as (d4 & D4 & H4).
  destruct (K (vz p) (vz (b_min b))) as (d5 & D5 & H5). destruct (K (vz p) (vz (b_max b))) as (d6 & D6 & H6).
  set (m := Rmin (Rmin d1 d2) (Rmin (Rmin d3 d4) (Rmin d5 d6))).
  exists m. split; [unfold m; repeat apply Rmin_pos; assumption|]. intros t T.
  pose proof (Rmin_l (Rmin d1 d2) (Rmin (Rmin d3 d4) (Rmin d5 d6))). pose proof (Rmin_r (Rmin d1 d2) (Rmin (Rmin d3 d4) (Rmin d5 d6))).
  pose proof (Rmin_l d1 d2). pose proof (Rmin_r d1 d2). pose proof (Rmin_l (Rmin d3 d4) (Rmin d5 d6)). pose proof (Rmin_r (Rmin d3 d4) (Rmin d5 d6)).
  pose proof (Rmin_l d3 d4). pose proof (Rmin_r d3 d4). pose proof (Rmin_l d5 d6). pose proof (Rmin_r d5 d6). fold m in H, H0.
  unfold off_faces, diag; cbn [vx vy vz].
  repeat match goal with |- _ /\ _ => split end; [apply H1|apply H2|apply H3|apply H4|apply H5|apply H6]; lra.
Qed.
Lemma extend k b p (F : vec3 -> R) : ordered b -> outside b p -> nice k -> rc (fun t => F (diag p t)) ->
  (forall p', outside b p' -> off_faces b p' -> box_integral (fun q => k (vsub p' q)) b (F p')) ->
  box_integral (fun q => k (vsub p q)) b (F p).
Proof.
  intros O Q N C H. pose proof (ordered_weak b O) as W. destruct (nice_integral k b p W Q N) as [J HJ].
  destruct (off_faces_diag b p) as (d1 & D1 & OF). destruct (outside_near b p Q) as (d2 & D2 & ON).
  destruct (away b p Q) as (d & D0 & DH). destruct (within b p) as (M & M0 & MH).
  destruct (N (d / 2) (M + d) ltac:(lra)) as (K & Bd & K0 & _ & _ & L).
  set (m := Rmin d1 (Rmin (d2 / 3) (d / 6))). assert (MP : 0 < m) by (unfold m; repeat apply Rmin_pos; lra).
  pose proof (Rmin_l d1 (Rmin (d2 / 3) (d / 6))). pose proof (Rmin_r d1 (Rmin (d2 / 3) (d / 6))).
  pose proof (Rmin_l (d2 / 3) (d / 6)). pose proof (Rmin_r (d2 / 3) (d / 6)). fold m in H0, H1.
  assert (G : forall t, 0 < t < m -> box_integral (fun q => k (vsub (diag p t) q)) b (F (diag p t))).
  { intros t T. apply H; [|apply OF; lra]. apply ON. eapply Rle_lt_trans; [apply diag_norm|]. rewrite Rabs_right by lra. lra. }
  destruct W as (A & B & C0).
  set (vol := (vx (b_max b) - vx (b_min b)) * (vy (b_max b) - vy (b_min b)) * (vz (b_max b) - vz (b_min b))).
  assert (V0 : 0 <= vol) by (unfold vol; apply Rmult_le_pos; [apply Rmult_le_pos|]; lra).
  set (g t := if Req_EM_T t 0 then J else F (diag p t)).
  assert (E : F (diag p 0) = g 0).
  { apply (rc_unique (fun t => F (diag p t)) g m MP); [|exact C|].
    - intros t T. unfold g. destruct (Req_EM_T t 0); [lra|reflexivity].
    - intros e He. assert (KP : 0 < 3 * vol * K + 1) by (assert (0 <= vol * K) by (apply Rmult_le_pos; assumption); lra).
      exists (Rmin m (e / (3 * vol * K + 1))). split; [apply Rmin_pos; [exact MP|apply Rdiv_lt_0_compat; assumption]|].
      intros t T. pose proof (Rmin_l m (e / (3 * vol * K + 1))). pose proof (Rmin_r m (e / (3 * vol * K + 1))).
      unfold g. destruct (Req_EM_T t 0); [lra|]. destruct (Req_EM_T 0 0); [|lra].
      apply Rle_lt_trans with (vol * (K * (3 * t))).
      + apply (triple_diff _ _ _ _ _ _ _ _ _ _ _ A B C0 (G t ltac:(lra)) HJ). intros x y z X Y Z.
        assert (IB : in_box b (V3 x y z)) by (split; [|split]; assumption).
        pose proof (diag_norm p t) as DN. rewrite Rabs_right in DN by lra.
        assert (SH : vsub (vsub (diag p t) (V3 x y z)) (vsub p (V3 x y z)) = vsub (diag p t) p) by (apply vec3_eq; cbn; ring).
        pose proof (DH _ IB). pose proof (MH _ IB).
        assert (AB : Rabs (vnorm (vsub (diag p t) (V3 x y z)) - vnorm (vsub p (V3 x y z))) <= 3 * t).
        { eapply Rle_trans; [apply vnorm_triangle_inv|]. rewrite SH. exact DN. }
        apply Rabs_le_between in AB.
        eapply Rle_trans; [apply L|]; [split; lra|split; lra|]. rewrite SH. apply Rmult_le_compat_l; assumption.
      + assert (T2 : t < e / (3 * vol * K + 1)) by lra. apply (Rmult_lt_compat_l (3 * vol * K + 1)) in T2; [|exact KP].
        replace ((3 * vol * K + 1) * (e / (3 * vol * K + 1))) with e in T2 by (field; lra). lra. }
  rewrite diag_0 in E. rewrite E. unfold g. destruct (Req_EM_T 0 0); [exact HJ|lra].
Qed.

(** ** the gravity of the prism at every outside point *)
Lemma field_integral_all G rho b p : ordered b -> outside b p ->
  box_vintegral (fun q => vscal (G * rho) (k1 (vsub p q))) b (gravitational_field G b rho p).
Proof.
  intros O Q. destruct k1_nice as (X & Y & Z).
  assert (SC : forall f, nice f -> nice (fun u => G * rho * f u)) by (intros f Hf; apply nice_mult; [apply nice_const|exact Hf]).
  refine (conj _ (conj _ _)).
  - apply (extend (fun u => vx (vscal (G * rho) (k1 u))) b p (fun p' => vx (gravitational_field G b rho p')) O Q).
    + apply SC, X.
    + cbn [gravitational_field vscal vx vy vz]. apply rc_scal, eval1_rc, fz_csum_rc.
    + intros p' Q' F'. apply (field_integral G rho b p' O Q' F').
  - apply (extend (fun u => vy (vscal (G * rho) (k1 u))) b p (fun p' => vy (gravitational_field G b rho p')) O Q).
    + apply SC, Y.
    + cbn [gravitational_field vscal vx vy vz]. apply rc_scal, eval2_rc, fz_csum_rc.
    + intros p' Q' F'. apply (field_integral G rho b p' O Q' F').
  - apply (extend (fun u => vz (vscal (G * rho) (k1 u))) b p (fun p' => vz (gravitational_field G b rho p')) O Q).
    + apply SC, Z.
    + cbn [gravitational_field vscal vx vy vz]. apply rc_scal, eval0_rc, fz_csum_rc.
    + intros p' Q' F'. apply (field_integral G rho b p' O Q' F').
Qed.
Lemma gradient_integral_all G rho b p : ordered b -> outside b p ->
  box_mintegral (fun q => mscal (G * rho) (k2 (vsub p q))) b (gravitational_gradient G b rho p).
Proof.
  intros O Q. destruct k2_nice as ((XX & XY & XZ) & (YX & YY & YZ) & (ZX & ZY & ZZ)). pose proof (outside_apart b p O Q) as A.
  assert (SC : forall f, nice f -> nice (fun u => G * rho * f u)) by (intros f Hf; apply nice_mult; [apply nice_const|exact Hf]).
  assert (R0 : rc (fun t => eval_def_int b prism_fzz (diag p t) 0)) by (apply eval0_rc, fzz_csum_rc; tauto).
  assert (R1 : rc (fun t => eval_def_int b prism_fzz (diag p t) 1)) by (apply eval1_rc, fzz_csum_rc; tauto).
  assert (R2 : rc (fun t => eval_def_int b prism_fzz (diag p t) 2)) by (apply eval2_rc, fzz_csum_rc; tauto).
  assert (S0 : rc (fun t => eval_def_int b prism_fzx (diag p t) 0)) by (apply eval0_rc, fzx_csum_rc; tauto).
  assert (S1 : rc (fun t => eval_def_int b prism_fzx (diag p t) 1)) by (apply eval1_rc, fzx_csum_rc; tauto).
  assert (T0 : rc (fun t => eval_def_int b prism_fzy (diag p t) 0)) by (apply fzy_eval_rc; assumption).
  refine (conj (conj _ (conj _ _)) (conj (conj _ (conj _ _)) (conj _ (conj _ _)))).
  - apply (extend (fun u => vx (m0 (mscal (G * rho) (k2 u)))) b p (fun p' => vx (m0 (gravitational_gradient G b rho p'))) O Q); [apply SC, XX|cbn; apply rc_scal; assumption|].
    intros p' Q' F'. apply (gradient_integral G rho b p' O Q' F').
  - apply (extend (fun u => vy (m0 (mscal (G * rho) (k2 u)))) b p (fun p' => vy (m0 (gravitational_gradient G b rho p'))) O Q); [apply SC, XY|cbn; apply rc_scal; assumption|].
    intros p' Q' F'. apply (gradient_integral G rho b p' O Q' F').
  - apply (extend (fun u => vz (m0 (mscal (G * rho) (k2 u)))) b p (fun p' => vz (m0 (gravitational_gradient G b rho p'))) O Q); [apply SC, XZ|cbn; apply rc_scal; assumption|].
    intros p' Q' F'. apply (gradient_integral G rho b p' O Q' F').
  - apply (extend (fun u => vx (m1 (mscal (G * rho) (k2 u)))) b p (fun p' => vx (m1 (gravitational_gradient G b rho p'))) O Q); [apply SC, YX|cbn; apply rc_scal; assumption|].
    intros p' Q' F'. apply (gradient_integral G rho b p' O Q' F').
  - apply (extend (fun u => vy (m1 (mscal (G * rho) (k2 u)))) b p (fun p' => vy (m1 (gravitational_gradient G b rho p'))) O Q); [apply SC, YY|cbn; apply rc_scal; assumption|].
    intros p' Q' F'. apply (gradient_integral G rho b p' O Q' F').
  - apply (extend (fun u => vz (m1 (mscal (G * rho) (k2 u)))) b p (fun p' => vz (m1 (gravitational_gradient G b rho p'))) O Q); [apply SC, YZ|cbn; apply rc_scal; assumption|].
    intros p' Q' F'. apply (gradient_integral G rho b p' O Q' F').
  - apply (extend (fun u => vx (m2 (mscal (G * rho) (k2 u)))) b p (fun p' => vx (m2 (gravitational_gradient G b rho p'))) O Q); [apply SC, ZX|cbn; apply rc_scal; assumption|].
    intros p' Q' F'. apply (gradient_integral G rho b p' O Q' F').
  - apply (extend (fun u => vy (m2 (mscal (G * rho) (k2 u)))) b p (fun p' => vy (m2 (gravitational_gradient G b rho p'))) O Q); [apply SC, ZY|cbn; apply rc_scal; assumption|].
    intros p' Q' F'. apply (gradient_integral G rho b p' O Q' F').
  - apply (extend (fun u => vz (m2 (mscal (G * rho) (k2 u)))) b p (fun p' => vz (m2 (gravitational_gradient G b rho p'))) O Q); [apply SC, ZZ|cbn; apply rc_scal; assumption|].
    intros p' Q' F'. apply (gradient_integral G rho b p' O Q' F').
Qed.

(** ** the third derivatives *)
Definition k3 (u : vec3) : vec3 -> vec3 -> vec3 := fun m w => let v := / vnorm u in
  let c := vdot m u in let d := vdot w u in
  V3 (3 * (vx m * d + vx w * c + vx u * vdot m w) * v ^ 5 - 15 * vx u * c * d * v ^ 7)
     (3 * (vy m * d + vy w * c + vy u * vdot m w) * v ^ 5 - 15 * vy u * c * d * v ^ 7)
     (3 * (vz m * d + vz w * c + vz u * vdot m w) * v ^ 5 - 15 * vz u * c * d * v ^ 7).
Lemma k3_grad m w u : u <> vzero -> is_grad (fun q => vdot w (mvec (k2 q) m)) u (k3 u m w).
Proof.
  intro H. pose proof (vnorm_pos _ H) as P. unfold k3, k2. destruct u as [x y z], m as [a b c], w as [d e f].
  pose proof (norm_dx x y z H). pose proof (norm_dy x y z H). pose proof (norm_dz x y z H).
  unfold mvec, vdot. cbn [m0 m1 m2 vx vy vz].
  split_grad; (eapply is_derive_eq; [der; lra|cbn [INR pred]; field; lra]).
Qed.
Lemma k3_nice m w : vnice (fun u => k3 u m w).
Proof.
  destruct nice_coord as (X & Y & Z).
  assert (D : forall v, nice (fun u => vdot v u)).
  { intro v. apply (nice_ext (fun u => vx v * vx u + vy v * vy u + vz v * vz u)); [reflexivity|nices]. }
  assert (A : forall a c f, nice f -> nice (fun u => 3 * (a * vdot w u + c * vdot m u + f u * vdot m w) * (/ vnorm u) ^ 5 - 15 * f u * vdot m u * vdot w u * (/ vnorm u) ^ 7)).
  { intros a c f F.
    apply (nice_ext (fun u => 3 * (a * vdot w u + c * vdot m u + f u * vdot m w) * (/ vnorm u * (/ vnorm u * (/ vnorm u * (/ vnorm u * / vnorm u)))) +
       -15 * f u * vdot m u * vdot w u * (/ vnorm u * (/ vnorm u * (/ vnorm u * (/ vnorm u * (/ vnorm u * (/ vnorm u * / vnorm u)))))))); [intro u; ring|].
    repeat first [exact F | apply D | apply nice_const | apply nice_inv | apply nice_plus | apply nice_mult]. }
  refine (conj _ (conj _ _)); cbn [k3 vx vy vz]; apply A; assumption.
Qed.
