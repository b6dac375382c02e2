(** Power carried by time-harmonic fields: generic lemmas. *)
From Coq Require Import Reals Lra Lia.
From Coquelicot Require Import Coquelicot.
From Verif Require Import Vec3 Calculus Deriv Integral Cplx Spec_Flux Spec_Power Proof_Flux.
Open Scope R_scope.

(** ** The Poynting vector is the mean power flow *)
Lemma mean_cross w (a b c d : R) : 0 < w ->
  is_RInt (fun t => (a * cos (w * t) - b * sin (w * t)) * (c * cos (w * t) - d * sin (w * t))) 0 (2 * PI / w) (2 * PI / w * ((a * c + b * d) / 2)).
Proof.
  intro W. pose proof PI_RGT_0.
  set (F := fun t => (a * c + b * d) / 2 * t + (a * c - b * d) / (2 * w) * (sin (w * t) * cos (w * t)) - (a * d + b * c) / (2 * w) * (sin (w * t) * sin (w * t))).
  assert (E : 2 * PI / w * ((a * c + b * d) / 2) = F (2 * PI / w) - F 0).
  { unfold F. replace (w * (2 * PI / w)) with (2 * PI) by (field; lra). rewrite (Rmult_0_r w), sin_0, sin_2PI. field. lra. }
  rewrite E. apply (FTC F); [apply Rlt_le, Rdiv_lt_0_compat; lra| |]; intros t _.
  - unfold F. eapply is_derive_eq; [der|]. cbv beta. pose proof (sin2_cos2 (w * t)) as S2. unfold Rsqr in S2.
    set (s := sin (w * t)) in *. set (k := cos (w * t)) in *. clearbody s k.
    transitivity ((a * c + b * d) / 2 * (s * s + k * k) + (a * c - b * d) / 2 * (k * k - s * s) - (a * d + b * c) * (s * k)); [rewrite S2; field; lra|field].
  - apply (ex_derive_continuous (fun t => (a * cos (w * t) - b * sin (w * t)) * (c * cos (w * t) - d * sin (w * t)))). eexists. der.
Qed.

Lemma at_time_eq w t F : at_time w t F = vsub (vscal (cos (w * t)) (re_vec F)) (vscal (sin (w * t)) (im_vec F)).
Proof.
  assert (X : cexp (Ci * RtoC (w * t))%C = (cos (w * t), sin (w * t))).
  { unfold cexp. cbn. replace (0 * (w * t) - 1 * 0) with 0 by ring. replace (0 * 0 + 1 * (w * t)) with (w * t) by ring. rewrite exp_0. f_equal; ring. }
  unfold at_time. rewrite X. destruct F as [[] [] []]. apply vec3_eq; cbn; ring.
Qed.

Lemma mean_power w E H : 0 < w ->
  let T := 2 * PI / w in
  let S t := vcross (at_time w t E) (at_time w t H) in
  is_RInt (fun t => vx (S t)) 0 T (T * vx (poynting E H)) /\ is_RInt (fun t => vy (S t)) 0 T (T * vy (poynting E H)) /\
  is_RInt (fun t => vz (S t)) 0 T (T * vz (poynting E H)).
Proof.
  intros W T S. unfold S, T. clear S T.
  assert (G : forall a b c d a' b' c' d' : R,
    is_RInt (fun t => (a * cos (w * t) - b * sin (w * t)) * (c * cos (w * t) - d * sin (w * t)) - (a' * cos (w * t) - b' * sin (w * t)) * (c' * cos (w * t) - d' * sin (w * t))) 0 (2 * PI / w)
      (2 * PI / w * ((a * c + b * d) / 2) - 2 * PI / w * ((a' * c' + b' * d') / 2))).
  { intros. apply (is_RInt_minus (V := R_NormedModule)); apply mean_cross, W. }
  destruct E as [[e1 e2] [e3 e4] [e5 e6]], H as [[h1 h2] [h3 h4] [h5 h6]].
  split; [|split]; [specialize (G e3 e4 h5 h6 e5 e6 h3 h4)|specialize (G e5 e6 h1 h2 e1 e2 h5 h6)|specialize (G e1 e2 h3 h4 e3 e4 h1 h2)].
  all: match type of G with is_RInt _ _ _ ?v => match goal with |- is_RInt _ _ _ ?u => replace u with v by (cbn; field; lra) end end.
  all: eapply is_RInt_ext; [|exact G]; intros t _; rewrite !at_time_eq; cbn; ring.
Qed.

(** ** The divergence of a cross product, and Poynting's theorem *)
Lemma is_div_cross (A B : vec3 -> vec3) p a b : is_curl A p a -> is_curl B p b ->
  is_div (fun q => vcross (A q) (B q)) p (vdot (B p) a - vdot (A p) b).
Proof.
  intros [J [(Ax & Ay & Az) ->]] [K [(Bx & By & Bz) ->]].
  assert (M : forall (f g : vec3 -> R) u v, is_grad f p u -> is_grad g p v -> is_grad (fun q => f q * g q) p (vadd (vscal (g p) u) (vscal (f p) v))).
  { intros f g u v (X & Y & Z) (X' & Y' & Z'). destruct p as [x y z]. unfold is_grad, is_dx, is_dy, is_dz in *. cbn [vx vy vz vadd vscal] in *.
    split; [|split]; (eapply is_derive_eq; [apply (D_mult (fun t => f _) (fun t => g _)); eassumption|cbv beta; ring]). }
  assert (N : forall (f g : vec3 -> R) u v, is_grad f p u -> is_grad g p v -> is_grad (fun q => f q - g q) p (vsub u v)).
  { intros f g u v (X & Y & Z) (X' & Y' & Z'). unfold is_grad, is_dx, is_dy, is_dz in *. cbn [vx vy vz vsub] in *.
    split; [|split]; apply (D_minus (fun t => f _) (fun t => g _)); assumption. }
  eexists (M3 _ _ _). split.
  - split; [|split]; cbn [m0 m1 m2].
    + exact (N _ _ _ _ (M _ _ _ _ Ay Bz) (M _ _ _ _ Az By)).
    + exact (N _ _ _ _ (M _ _ _ _ Az Bx) (M _ _ _ _ Ax Bz)).
    + exact (N _ _ _ _ (M _ _ _ _ Ax By) (M _ _ _ _ Ay Bx)).
  - unfold mtrace, curl_of, vdot. cbn. ring.
Qed.

Lemma amplitude_sq F : amplitude F ^ 2 = vnorm2 (re_vec F) + vnorm2 (im_vec F).
Proof.
  unfold amplitude. cbn [pow]. rewrite Rmult_1_r. apply sqrt_sqrt. apply Rplus_le_le_0_compat; unfold vnorm2; nra.
Qed.
Lemma amplitude_nonneg F : 0 <= amplitude F.
Proof. apply sqrt_pos. Qed.

Lemma is_div_half A B p d e : is_div A p d -> is_div B p e -> is_div (fun q => vscal (1 / 2) (vadd (A q) (B q))) p (1 / 2 * (d + e)).
Proof.
  intros [J [(A1 & A2 & A3) ->]] [K [(B1 & B2 & B3) ->]].
  assert (M : forall (f g : vec3 -> R) u v, is_grad f p u -> is_grad g p v -> is_grad (fun q => 1 / 2 * (f q + g q)) p (vscal (1 / 2) (vadd u v))).
  { intros f g u v (X & Y & Z) (X' & Y' & Z'). unfold is_grad, is_dx, is_dy, is_dz in *. cbn [vx vy vz vadd vscal] in *.
    split; [|split]; apply (D_scal (1 / 2) (fun t => f _ + g _)); apply (D_plus (fun t => f _) (fun t => g _)); assumption. }
  eexists (M3 _ _ _). split.
  - split; [|split]; [exact (M _ _ _ _ A1 B1)|exact (M _ _ _ _ A2 B2)|exact (M _ _ _ _ A3 B3)].
  - unfold mtrace. cbn. ring.
Qed.

(** [curl E = z H] and [curl H = y E]: the power flow loses Re y |E|^2 / 2 - Re z |H|^2 / 2 per volume *)
Lemma poynting_theorem (E H : vec3 -> cvec) p (z y : C) :
  is_ccurl E p (cvscal z (H p)) -> is_ccurl H p (cvscal y (E p)) ->
  is_div (fun q => poynting (E q) (H q)) p (Re z * amplitude (H p) ^ 2 / 2 - Re y * amplitude (E p) ^ 2 / 2).
Proof.
  intros [E1 E2] [H1 H2].
  pose proof (is_div_half _ _ _ _ _ (is_div_cross _ _ _ _ _ E1 H1) (is_div_cross _ _ _ _ _ E2 H2)) as D. cbv beta in D.
  match type of D with is_div _ _ ?v => match goal with |- is_div _ _ ?u => replace u with v; [exact D|] end end.
  rewrite !amplitude_sq. destruct (E p) as [[] [] []], (H p) as [[] [] []], z, y. unfold vdot, vnorm2. cbn. field.
Qed.

(** ** Integrals over a sphere of quadratic functions of the direction *)
Lemma frame_parseval e1 e2 e3 v : frame e1 e2 e3 -> vdot e1 v ^ 2 + vdot e2 v ^ 2 + vdot e3 v ^ 2 = vnorm2 v.
Proof.
  intros (A & B & D & E & F & G).
  set (w := vsub v (vadd (vadd (vscal (vdot e1 v) e1) (vscal (vdot e2 v) e2)) (vscal (vdot e3 v) e3))).
  assert (W : forall e, vdot e w = vdot e v - (vdot e1 v * vdot e e1 + vdot e2 v * vdot e e2 + vdot e3 v * vdot e e3)).
  { intro e. unfold w, vdot, vsub, vadd, vscal. cbn. ring. }
  assert (W1 : vdot e1 w = 0) by (rewrite W, A, E; replace (vdot e1 e3) with (vdot e3 e1) by (unfold vdot; ring); rewrite G; ring).
  assert (W2 : vdot e2 w = 0) by (rewrite W, B, F; replace (vdot e2 e1) with (vdot e1 e2) by (unfold vdot; ring); rewrite E; ring).
  assert (W3 : vdot e3 w = 0) by (rewrite W, D, G; replace (vdot e3 e2) with (vdot e2 e3) by (unfold vdot; ring); rewrite F; ring).
  set (det := vdot e1 (vcross e2 e3)).
  assert (DD : det * det = 1).
  { transitivity (vdot e1 e1 * (vdot e2 e2 * vdot e3 e3 - vdot e2 e3 * vdot e2 e3) - vdot e1 e2 * (vdot e1 e2 * vdot e3 e3 - vdot e2 e3 * vdot e3 e1) + vdot e3 e1 * (vdot e1 e2 * vdot e2 e3 - vdot e2 e2 * vdot e3 e1)).
    - unfold det, vdot, vcross. cbn. ring.
    - rewrite A, B, D, E, F, G. ring. }
  assert (Z : vadd (vadd (vscal (vdot e1 w) (vcross e2 e3)) (vscal (vdot e2 w) (vcross e3 e1))) (vscal (vdot e3 w) (vcross e1 e2)) = vscal det w).
  { unfold det, vdot, vcross, vadd, vscal. apply vec3_eq; cbn; ring. }
  rewrite W1, W2, W3 in Z.
  assert (Q : vnorm2 w = 0).
  { transitivity (det * det * vnorm2 w); [rewrite DD; ring|]. transitivity (vnorm2 (vscal det w)); [unfold vnorm2, vdot, vscal; cbn; ring|]. rewrite <- Z. unfold vnorm2, vdot, vscal, vadd, vcross. cbn. ring. }
  assert (Q' : vnorm2 w = vnorm2 v - (vdot e1 v * vdot e1 v + vdot e2 v * vdot e2 v + vdot e3 v * vdot e3 v)).
  { transitivity (vdot v w - vdot e1 v * vdot e1 w - vdot e2 v * vdot e2 w - vdot e3 v * vdot e3 w).
    - unfold w, vnorm2, vdot, vsub, vadd, vscal. cbn. ring.
    - rewrite W1, W2, W3, W. rewrite (ltac:(unfold vdot; ring) : vdot v e1 = vdot e1 v), (ltac:(unfold vdot; ring) : vdot v e2 = vdot e2 v), (ltac:(unfold vdot; ring) : vdot v e3 = vdot e3 v). unfold vnorm2, vdot. ring. }
  rewrite Q in Q'. nra.
Qed.

Lemma quad_ring (a b g : R) : is_RInt (fun p => (a * cos p + b * sin p + g) ^ 2) 0 (2 * PI) (PI * (a ^ 2 + b ^ 2 + 2 * g ^ 2)).
Proof.
  set (F := fun p => (a ^ 2 + b ^ 2 + 2 * g ^ 2) / 2 * p + (a ^ 2 - b ^ 2) / 2 * (sin p * cos p) + a * b * (sin p * sin p) + 2 * g * (a * sin p - b * cos p)).
  assert (E : PI * (a ^ 2 + b ^ 2 + 2 * g ^ 2) = F (2 * PI) - F 0).
  { unfold F. rewrite sin_0, cos_0, sin_2PI, cos_2PI. field. }
  rewrite E. apply (FTC F); [pose proof PI_RGT_0; lra| |]; intros t _.
  - unfold F. eapply is_derive_eq; [der|]. cbv beta. pose proof (sin2_cos2 t) as S2. unfold Rsqr in S2.
    set (s := sin t) in *. set (k := cos t) in *. clearbody s k.
    transitivity ((a ^ 2 + b ^ 2) / 2 * (s * s + k * k) + g ^ 2 + (a ^ 2 - b ^ 2) / 2 * (k * k - s * s) + 2 * a * b * (s * k) + 2 * g * (a * k + b * s)); [rewrite S2; field|].
    transitivity ((a * k + b * s + g) ^ 2); [field|ring].
  - apply (ex_derive_continuous (fun p => (a * cos p + b * sin p + g) ^ 2)). eexists. der.
Qed.

Lemma sphere_quad e1 e2 e3 c rad (g : vec3 -> R) k l m : frame e1 e2 e3 ->
  (forall t p, let n := direction e1 e2 e3 t p in g (vadd c (vscal rad n)) = k + l * vdot n m ^ 2) ->
  over_sphere e1 e2 e3 c rad g (4 * PI * rad ^ 2 * (k + l * vnorm2 m / 3)).
Proof.
  intros F G. set (m1 := vdot e1 m). set (m2 := vdot e2 m). set (m3 := vdot e3 m).
  assert (P : m1 ^ 2 + m2 ^ 2 + m3 ^ 2 = vnorm2 m) by (apply frame_parseval, F).
  exists (fun t => rad ^ 2 * sin t * (2 * PI * k + l * (PI * ((sin t * m1) ^ 2 + (sin t * m2) ^ 2 + 2 * (cos t * m3) ^ 2)))). split.
  - intros t _. pose proof (quad_ring (sin t * m1) (sin t * m2) (cos t * m3)) as Q.
    pose proof (is_RInt_scal (V := R_NormedModule) _ _ _ (rad ^ 2 * sin t) _ (is_RInt_plus (V := R_NormedModule) _ _ _ _ _ _ (const_integral 0 (2 * PI) k) (is_RInt_scal (V := R_NormedModule) _ _ _ l _ Q))) as S.
    match type of S with is_RInt _ _ _ ?v => match goal with |- is_RInt _ _ _ ?u => replace u with v by (unfold scal, plus; cbn; unfold mult; cbn; ring) end end.
    eapply is_RInt_ext; [|exact S]. intros p _. cbv beta. rewrite G, dir_dot. fold m1 m2 m3. unfold scal, plus; cbn; unfold mult; cbn. ring.
  - set (A := fun t => rad ^ 2 * (- (2 * PI * k) * cos t + l * PI * ((m1 ^ 2 + m2 ^ 2) * (cos t ^ 3 / 3 - cos t) - 2 * m3 ^ 2 * (cos t ^ 3 / 3)))).
    assert (E : 4 * PI * rad ^ 2 * (k + l * vnorm2 m / 3) = A PI - A 0).
    { unfold A. rewrite cos_PI, cos_0, <- P. field. }
    rewrite E. apply (FTC A); [pose proof PI_RGT_0; lra| |]; intros t _.
    + unfold A. eapply is_derive_eq; [der; lra|]. cbn [INR Init.Nat.pred]. pose proof (sin2_cos2 t) as S2. unfold Rsqr in S2.
      set (s := sin t) in *. set (q := cos t) in *. clearbody s q. assert (S3 : s ^ 2 = 1 - q ^ 2) by nra.
      transitivity (rad ^ 2 * s * (2 * PI * k + l * (PI * (s ^ 2 * m1 ^ 2 + s ^ 2 * m2 ^ 2 + 2 * (q * m3) ^ 2)))); [rewrite S3; field|ring].
    + apply (ex_derive_continuous (fun t => rad ^ 2 * sin t * (2 * PI * k + l * (PI * ((sin t * m1) ^ 2 + (sin t * m2) ^ 2 + 2 * (cos t * m3) ^ 2))))). eexists. der.
Qed.

Lemma flux_quad e1 e2 e3 c rad (J : vec3 -> vec3) k l m : frame e1 e2 e3 ->
  (forall t p, let n := direction e1 e2 e3 t p in vdot (J (vadd c (vscal rad n))) n = k + l * vdot n m ^ 2) ->
  flux_out e1 e2 e3 c rad J (4 * PI * rad ^ 2 * (k + l * vnorm2 m / 3)).
Proof.
  intros F G. set (g := fun q => k + l * (vdot (vsub q c) m / rad) ^ 2).
  destruct (Req_dec rad 0) as [->|N].
  - exists (fun _ => 0). split.
    + intros t _. cbv beta. pose proof (const_integral 0 (2 * PI) 0) as Z. rewrite Rmult_0_r in Z. eapply is_RInt_ext; [|exact Z]. intros p _. cbv beta zeta. cbn [pow]. rewrite !Rmult_0_l, Rmult_0_r. reflexivity.
    + replace (4 * PI * 0 ^ 2 * (k + l * vnorm2 m / 3)) with ((PI - 0) * 0) by ring. exact (const_integral 0 PI 0).
  - destruct (sphere_quad e1 e2 e3 c rad g k l m F) as [r [A B]].
    { intros t p n. unfold g. replace (vdot (vsub (vadd c (vscal rad n)) c) m) with (rad * vdot n m) by (unfold vdot, vsub, vadd, vscal; cbn; ring). field. exact N. }
    exists r. split; [|exact B]. intros t Ht. eapply is_RInt_ext; [|exact (A t Ht)]. intros p _. cbv beta zeta. rewrite G. f_equal.
    unfold g. replace (vdot (vsub (vadd c (vscal rad (direction e1 e2 e3 t p))) c) m) with (rad * vdot (direction e1 e2 e3 t p) m) by (unfold vdot, vsub, vadd, vscal; cbn; ring). field. exact N.
Qed.
