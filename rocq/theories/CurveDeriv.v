(** Derivatives of fields along arbitrary differentiable curves, and how the Jacobian
    and the curl behave under a rigid motion.  Generic mathematics. *)
From Coq Require Import Reals Lra.
From Coquelicot Require Import Coquelicot.
From Verif Require Import Vec3 Calculus Deriv.
Open Scope R_scope.

(** [g] is the differential of [f] along every differentiable curve through [p] *)
Definition is_cgrad (f : vec3 -> R) (p g : vec3) : Prop :=
  forall (x y z : R -> R) (t dx dy dz : R),
    is_derive x t dx -> is_derive y t dy -> is_derive z t dz -> V3 (x t) (y t) (z t) = p ->
    is_derive (fun u => f (V3 (x u) (y u) (z u))) t (vdot g (V3 dx dy dz)).

Definition is_cjac (F : vec3 -> vec3) (p : vec3) (J : mat3) : Prop :=
  is_cgrad (fun q => vx (F q)) p (m0 J) /\ is_cgrad (fun q => vy (F q)) p (m1 J) /\ is_cgrad (fun q => vz (F q)) p (m2 J).

Lemma D_ident (x : R) : is_derive (fun t : R => t) x 1.
Proof. apply (D_id x). Qed.

Lemma cgrad_grad f p g : is_cgrad f p g -> is_grad f p g.
Proof.
  intro H. destruct p as [a b c]. unfold is_grad, is_dx, is_dy, is_dz; cbn [vx vy vz].
  refine (conj _ (conj _ _)).
  - eapply is_derive_eq; [apply (H (fun t => t) (fun _ => b) (fun _ => c) a 1 0 0); try reflexivity; der|vunf; ring].
  - eapply is_derive_eq; [apply (H (fun _ => a) (fun t => t) (fun _ => c) b 0 1 0); try reflexivity; der|vunf; ring].
  - eapply is_derive_eq; [apply (H (fun _ => a) (fun _ => b) (fun t => t) c 0 0 1); try reflexivity; der|vunf; ring].
Qed.

Lemma cjac_jac F p J : is_cjac F p J -> is_jac F p J.
Proof. intros [A [B C]]. split; [|split]; apply cgrad_grad; assumption. Qed.

(** rigid motion of the argument *)
Lemma cgrad_motion f M p0 p g : is_cgrad f (mvec M (vsub p p0)) g ->
  is_cgrad (fun q => f (mvec M (vsub q p0))) p (mvec (mtrans M) g).
Proof.
  intros H x y z t dx dy dz Dx Dy Dz E.
  destruct M as [[a b c] [d e f'] [h i j]], p0 as [u v w], p as [p q r], g as [g1 g2 g3].
  apply V3_inj in E. destruct E as [E1 [E2 E3]].
  eapply is_derive_eq.
  - apply (H (fun t => vdot (V3 a b c) (vsub (V3 (x t) (y t) (z t)) (V3 u v w)))
             (fun t => vdot (V3 d e f') (vsub (V3 (x t) (y t) (z t)) (V3 u v w)))
             (fun t => vdot (V3 h i j) (vsub (V3 (x t) (y t) (z t)) (V3 u v w)))).
    + unfold vdot, vsub; cbn [vx vy vz]. der.
    + unfold vdot, vsub; cbn [vx vy vz]. der.
    + unfold vdot, vsub; cbn [vx vy vz]. der.
    + rewrite E1, E2, E3. reflexivity.
  - vunf; ring.
Qed.

Lemma cgrad_lin3 (f g h : vec3 -> R) a b c p u v w :
  is_cgrad f p u -> is_cgrad g p v -> is_cgrad h p w ->
  is_cgrad (fun q => a * f q + b * g q + c * h q) p (vadd (vadd (vscal a u) (vscal b v)) (vscal c w)).
Proof.
  intros F G H x y z t dx dy dz Dx Dy Dz E.
  pose proof (F x y z t dx dy dz Dx Dy Dz E). pose proof (G x y z t dx dy dz Dx Dy Dz E). pose proof (H x y z t dx dy dz Dx Dy Dz E).
  eapply is_derive_eq; [der|]. vunf; ring.
Qed.

(** F evaluated in a rotated frame and rotated back *)
Lemma cjac_motion F M p0 p J : is_cjac F (mvec M (vsub p p0)) J ->
  is_cjac (fun q => mvec (mtrans M) (F (mvec M (vsub q p0)))) p (mmul (mtrans M) (mmul J M)).
Proof.
  intros [A [B C]]. apply (cgrad_motion _ M p0) in A. apply (cgrad_motion _ M p0) in B. apply (cgrad_motion _ M p0) in C.
  destruct M as [[a b c] [d e f'] [h i j]].
  split; [|split];
  [ pose proof (cgrad_lin3 _ _ _ a d h _ _ _ _ A B C) as K
  | pose proof (cgrad_lin3 _ _ _ b e i _ _ _ _ A B C) as K
  | pose proof (cgrad_lin3 _ _ _ c f' j _ _ _ _ A B C) as K ];
  intros x y z t dx dy dz Dx Dy Dz E; (eapply is_derive_eq; [exact (K x y z t dx dy dz Dx Dy Dz E)|]);
  destruct J as [[] [] []]; vunf; ring.
Qed.

(** the adjugate of a rotation is its transpose *)
Lemma rotation_cross M u v : is_rotation M -> vcross (mvec M u) (mvec M v) = mvec M (vcross u v).
Proof.
  intros [H1 [H2 D]].
  assert (C : forall w, vdot (vcross (mvec M u) (mvec M v)) (mvec M w) = vdot (mvec M (vcross u v)) (mvec M w)).
  { intro w. rewrite rotation_dot by (split; [|split]; assumption).
    transitivity (mdet M * vdot (vcross u v) w).
    - destruct M as [[] [] []], u, v, w; vunf; ring.
    - rewrite D; ring. }
  assert (S : forall q, exists w, mvec M w = q).
  { intro q. exists (mvec (mtrans M) q).
    transitivity (mvec (mmul M (mtrans M)) q); [destruct M as [[] [] []], q; vring|]. rewrite H2. destruct q; vring. }
  apply vec3_eq.
  - destruct (S (V3 1 0 0)) as [w W]. specialize (C w). rewrite W in C. unfold vdot in C; cbn [vx vy vz] in C. lra.
  - destruct (S (V3 0 1 0)) as [w W]. specialize (C w). rewrite W in C. unfold vdot in C; cbn [vx vy vz] in C. lra.
  - destruct (S (V3 0 0 1)) as [w W]. specialize (C w). rewrite W in C. unfold vdot in C; cbn [vx vy vz] in C. lra.
Qed.

Lemma is_rotation_trans M : is_rotation M -> is_rotation (mtrans M).
Proof.
  intros [A [B C]]. unfold is_rotation.
  assert (E : mtrans (mtrans M) = M) by (destruct M as [[] [] []]; reflexivity).
  rewrite E. split; [exact B|split; [exact A|]]. rewrite <- C. destruct M as [[] [] []]; vunf; ring.
Qed.

Lemma mvec_mmul A B v : mvec (mmul A B) v = mvec A (mvec B v).
Proof. destruct A as [[] [] []], B as [[] [] []], v; vring. Qed.
Lemma mvec_mid v : mvec mid v = v.
Proof. destruct v; vring. Qed.
Lemma rot_inv_l M v : is_rotation M -> mvec (mtrans M) (mvec M v) = v.
Proof. intros [A _]. rewrite <- mvec_mmul, A. apply mvec_mid. Qed.
Lemma rot_inv_r M v : is_rotation M -> mvec M (mvec (mtrans M) v) = v.
Proof. intros [_ [A _]]. rewrite <- mvec_mmul, A. apply mvec_mid. Qed.

(** curl and trace of a Jacobian under a rotation.  The curl is determined by
    [J u . v - J v . u = curl . (u x v)]. *)
Lemma curl_char J u v : vdot (mvec J u) v - vdot (mvec J v) u = vdot (curl_of J) (vcross u v).
Proof. destruct J as [[] [] []], u, v; unfold curl_of; vunf; ring. Qed.

Lemma curl_rot M J : is_rotation M -> curl_of (mmul (mtrans M) (mmul J M)) = mvec (mtrans M) (curl_of J).
Proof.
  intro R.
  assert (C : forall u v, vdot (curl_of (mmul (mtrans M) (mmul J M))) (vcross u v) = vdot (mvec (mtrans M) (curl_of J)) (vcross u v)).
  { intros u v. rewrite <- curl_char. rewrite !mvec_mmul.
    assert (T : forall a b, vdot (mvec (mtrans M) a) b = vdot a (mvec M b)) by (intros a b; destruct M as [[] [] []], a, b; vring).
    rewrite !T. rewrite curl_char, rotation_cross by exact R. reflexivity. }
  apply vec3_eq.
  - specialize (C (V3 0 1 0) (V3 0 0 1)). unfold vdot, vcross in C; cbn [vx vy vz] in C. lra.
  - specialize (C (V3 0 0 1) (V3 1 0 0)). unfold vdot, vcross in C; cbn [vx vy vz] in C. lra.
  - specialize (C (V3 1 0 0) (V3 0 1 0)). unfold vdot, vcross in C; cbn [vx vy vz] in C. lra.
Qed.

Lemma trace_rot M J : is_rotation M -> mtrace (mmul (mtrans M) (mmul J M)) = mtrace J.
Proof.
  intros [_ [H _]].
  assert (E : mtrace (mmul (mtrans M) (mmul J M)) = mtrace (mmul J (mmul M (mtrans M)))).
  { destruct M as [[] [] []], J as [[] [] []]; vunf; ring. }
  rewrite E, H. destruct J as [[] [] []]; vunf; ring.
Qed.

Lemma curl_motion F M p0 p J : is_rotation M -> is_cjac F (mvec M (vsub p p0)) J ->
  is_curl (fun q => mvec (mtrans M) (F (mvec M (vsub q p0)))) p (mvec (mtrans M) (curl_of J)).
Proof.
  intros R H. exists (mmul (mtrans M) (mmul J M)). split; [apply cjac_jac, cjac_motion, H|symmetry; apply curl_rot; exact R].
Qed.

Lemma div_motion F M p0 p J : is_rotation M -> is_cjac F (mvec M (vsub p p0)) J ->
  is_div (fun q => mvec (mtrans M) (F (mvec M (vsub q p0)))) p (mtrace J).
Proof.
  intros R H. exists (mmul (mtrans M) (mmul J M)). split; [apply cjac_jac, cjac_motion, H|symmetry; apply trace_rot; exact R].
Qed.
