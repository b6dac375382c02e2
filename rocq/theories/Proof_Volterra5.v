(** The point loads are those of unit forces (C130). *)
From Coq Require Import Reals Lra Psatz.
From Coquelicot Require Import Coquelicot.
From Verif Require Import Vec3 Calculus Deriv Integral Spec_Volterra Proof_Volterra.
Open Scope R_scope.

Lemma int_trig A B C D E : is_RInt (fun ph => A + B * cos ph + C * sin ph + D * (cos ph * sin ph) + E * (cos ph * cos ph)) 0 (2 * PI) (2 * PI * A + PI * E).
Proof.
  pose proof PI_RGT_0.
  replace (2 * PI * A + PI * E) with ((fun ph => A * ph + B * sin ph - C * cos ph + D * (sin ph * sin ph / 2) + E * ((ph + sin ph * cos ph) / 2)) (2 * PI) - (fun ph => A * ph + B * sin ph - C * cos ph + D * (sin ph * sin ph / 2) + E * ((ph + sin ph * cos ph) / 2)) 0).
  2:{ cbv beta. rewrite sin_2PI, cos_2PI, sin_0, cos_0. field. }
  apply (FTC (fun ph => A * ph + B * sin ph - C * cos ph + D * (sin ph * sin ph / 2) + E * ((ph + sin ph * cos ph) / 2))); [lra| |].
  - intros ph _. eapply is_derive_eq; [der; lra|]. pose proof (sin2_cos2 ph) as S. unfold Rsqr in S. assert (S2 : sin ph * sin ph = 1 - cos ph * cos ph) by lra. cbv beta. field [S2].
  - intros ph _. apply (ex_derive_continuous (K := R_AbsRing) (V := R_NormedModule)). eexists. der.
Qed.
Lemma int_sin3 : is_RInt (fun th => sin th * sin th * sin th) 0 (PI / 2) (2 / 3).
Proof.
  pose proof PI_RGT_0.
  replace (2 / 3) with ((fun th => - cos th + cos th * cos th * cos th / 3) (PI / 2) - (fun th => - cos th + cos th * cos th * cos th / 3) 0).
  2:{ cbv beta. rewrite cos_PI2, cos_0. field. }
  apply (FTC (fun th => - cos th + cos th * cos th * cos th / 3)); [lra| |].
  - intros th _. eapply is_derive_eq; [der; lra|]. pose proof (sin2_cos2 th) as S. unfold Rsqr in S. assert (S2 : cos th * cos th = 1 - sin th * sin th) by lra. cbv beta. field [S2].
  - intros th _. apply (ex_derive_continuous (K := R_AbsRing) (V := R_NormedModule)). eexists. der.
Qed.
Lemma int_cos2sin : is_RInt (fun th => cos th * cos th * sin th) 0 (PI / 2) (1 / 3).
Proof.
  pose proof PI_RGT_0.
  replace (1 / 3) with ((fun th => - (cos th * cos th * cos th / 3)) (PI / 2) - (fun th => - (cos th * cos th * cos th / 3)) 0).
  2:{ cbv beta. rewrite cos_PI2, cos_0. field. }
  apply (FTC (fun th => - (cos th * cos th * cos th / 3))); [lra| |].
  - intros th _. eapply is_derive_eq; [der; lra|]. cbv beta. field.
  - intros th _. apply (ex_derive_continuous (K := R_AbsRing) (V := R_NormedModule)). eexists. der.
Qed.

Section Unit.
  Variables lambda mu : R.
  Hypothesis M : mu <> 0.
  Hypothesis LM : lambda + mu <> 0.
  Notation k := (mu / (lambda + mu)).
  Variable a : R.
  Hypothesis A : 0 < a.
  Notation hp th ph := (hemisphere a th ph).
  Lemma hemi_norm th ph : vnorm (hp th ph) = a.
  Proof.
    unfold vnorm, hemisphere, vnorm2; cbn [vx vy vz]. pose proof (sin2_cos2 th) as S1. pose proof (sin2_cos2 ph) as S2. unfold Rsqr in S1, S2.
    assert (E1 : sin th * sin th = 1 - cos th * cos th) by lra. assert (E2 : sin ph * sin ph = 1 - cos ph * cos ph) by lra.
    replace (_ + _) with (a * a) by ring [E1 E2]. apply sqrt_square. lra.
  Qed.
  (** the i-th component of the traction, times 2 pi a^2 sin th *)
  Definition pull (j i : axis) (th ph : R) : R :=
    let s := sin th in let c := cos th in let u := 1 + c in
    s * match j, i with
    | AX, AX => - 3 * s * s * (cos ph * cos ph) + k * (- s * s / (u * u) + s * s * (1 - 2 / (u * u) + s * s * (u + 2) / (u * u * u)) * (cos ph * cos ph))
    | AY, AY => - 3 * s * s * (1 - cos ph * cos ph) + k * (- s * s / (u * u) + s * s * (1 - 2 / (u * u) + s * s * (u + 2) / (u * u * u)) * (1 - cos ph * cos ph))
    | AX, AY | AY, AX => (- 3 * s * s + k * (s * s * (1 - 2 / (u * u) + s * s * (u + 2) / (u * u * u)))) * (cos ph * sin ph)
    | AX, AZ => 3 * s * c * cos ph
    | AY, AZ => 3 * s * c * sin ph
    | AZ, AX => (3 * s * c + k * s * (- c + / u - s * s * (u + 1) / (u * u))) * cos ph
    | AZ, AY => (3 * s * c + k * s * (- c + / u - s * s * (u + 1) / (u * u))) * sin ph
    | AZ, AZ => - 3 * c * c
    end.
  Lemma pull_eq j i th ph : 0 <= cos th ->
    comp i (mvec (mscal (/ (2 * PI)) (sload lambda mu j (hp th ph))) (vscal (/ a) (hp th ph))) * (a ^ 2 * sin th) = / (2 * PI) * pull j i th ph.
  Proof.
    intros C. pose proof PI_RGT_0. unfold sload. cbv zeta. rewrite hemi_norm. unfold pull, hemisphere. cbv zeta.
    pose proof (sin2_cos2 th) as S1. pose proof (sin2_cos2 ph) as S2. unfold Rsqr in S1, S2. assert (E2 : sin ph * sin ph = 1 - cos ph * cos ph) by lra.
    assert (E1 : sin th * sin th = 1 - cos th * cos th) by lra.
    generalize dependent (sin ph). generalize dependent (cos ph). intros cp sp S2 E2. generalize dependent (sin th). generalize dependent (cos th). intros c C s S1 E1. generalize k. intros k0.
    assert (N : a - - a * c <> 0) by nra.
    destruct j, i; unfold mvec, mscal, vscal, vdot; cbn [vx vy vz m0 m1 m2 comp].
    all: field [E1 E2]; repeat split; lra.
  Qed.
  Lemma pull_integral j i : is_double_integral (fun ph th => / (2 * PI) * pull j i th ph) 0 (2 * PI) 0 (PI / 2) (- comp i (unit_vec j)).
  Proof.
    pose proof PI_RGT_0.
    assert (U : forall th, 0 <= th <= PI / 2 -> 1 + cos th <> 0) by (intros th H0; assert (0 <= cos th) by (apply cos_ge_0; lra); lra).
    exists (fun th => match j, i with AX, AX | AY, AY => - (3 / 2) * (sin th * sin th * sin th) | AZ, AZ => - 3 * (cos th * cos th * sin th) | _, _ => 0 end). split.
    - intros th H0. specialize (U th H0). pose proof (sin2_cos2 th) as S1. unfold Rsqr in S1. assert (E1 : sin th * sin th = 1 - cos th * cos th) by lra.
      assert (E : exists A0 B0 C0 D0 E0, (forall ph, / (2 * PI) * pull j i th ph = A0 + B0 * cos ph + C0 * sin ph + D0 * (cos ph * sin ph) + E0 * (cos ph * cos ph)) /\
         2 * PI * A0 + PI * E0 = match j, i with AX, AX | AY, AY => - (3 / 2) * (sin th * sin th * sin th) | AZ, AZ => - 3 * (cos th * cos th * sin th) | _, _ => 0 end).
      { unfold pull. cbv zeta. generalize dependent (sin th). generalize dependent (cos th). intros c U s S1 E1. generalize k. intros k0.
        destruct j, i.
        - exists (/ (2 * PI) * (s * (k0 * (- s * s / ((1 + c) * (1 + c)))))), 0, 0, 0, (/ (2 * PI) * (s * (- 3 * s * s + k0 * (s * s * (1 - 2 / ((1 + c) * (1 + c)) + s * s * (1 + c + 2) / ((1 + c) * (1 + c) * (1 + c))))))).
          split; [intros ph; ring|]. field [E1]. split; lra.
        - exists 0, 0, 0, (/ (2 * PI) * (s * (- 3 * s * s + k0 * (s * s * (1 - 2 / ((1 + c) * (1 + c)) + s * s * (1 + c + 2) / ((1 + c) * (1 + c) * (1 + c))))))), 0. split; intros; ring.
        - exists 0, (/ (2 * PI) * (s * (3 * s * c))), 0, 0, 0. split; intros; ring.
        - exists 0, 0, 0, (/ (2 * PI) * (s * (- 3 * s * s + k0 * (s * s * (1 - 2 / ((1 + c) * (1 + c)) + s * s * (1 + c + 2) / ((1 + c) * (1 + c) * (1 + c))))))), 0. split; intros; ring.
        - exists (/ (2 * PI) * (s * (- 3 * s * s + k0 * (- s * s / ((1 + c) * (1 + c)) + s * s * (1 - 2 / ((1 + c) * (1 + c)) + s * s * (1 + c + 2) / ((1 + c) * (1 + c) * (1 + c))))))), 0, 0, 0,
            (- (/ (2 * PI) * (s * (- 3 * s * s + k0 * (s * s * (1 - 2 / ((1 + c) * (1 + c)) + s * s * (1 + c + 2) / ((1 + c) * (1 + c) * (1 + c)))))))).
          split; [intros ph; ring|]. field [E1]. split; lra.
        - exists 0, 0, (/ (2 * PI) * (s * (3 * s * c))), 0, 0. split; intros; ring.
        - exists 0, (/ (2 * PI) * (s * (3 * s * c + k0 * s * (- c + / (1 + c) - s * s * (1 + c + 1) / ((1 + c) * (1 + c)))))), 0, 0, 0. split; intros; ring.
        - exists 0, 0, (/ (2 * PI) * (s * (3 * s * c + k0 * s * (- c + / (1 + c) - s * s * (1 + c + 1) / ((1 + c) * (1 + c)))))), 0, 0. split; intros; ring.
        - exists (/ (2 * PI) * (s * (- 3 * c * c))), 0, 0, 0, 0. split; [intros; ring|]. field. lra. }
      destruct E as (A0 & B0 & C0 & D0 & E0 & E & V). rewrite <- V. apply (is_RInt_ext_in (fun ph => A0 + B0 * cos ph + C0 * sin ph + D0 * (cos ph * sin ph) + E0 * (cos ph * cos ph))); [lra| |apply int_trig].
      intros ph _. symmetry. apply E.
    - assert (Z : is_RInt (fun _ : R => 0) 0 (PI / 2) (- 0)).
      { replace (- 0) with (scal (PI / 2 - 0) 0) by (match goal with |- scal ?x ?y = ?r => change (x * y = r) end; ring). apply (is_RInt_const (V := R_NormedModule)). }
      assert (X3 : is_RInt (fun th => - (3 / 2) * (sin th * sin th * sin th)) 0 (PI / 2) (Ropp 1)).
      { replace (Ropp 1) with (scal (- (3 / 2)) (2 / 3)) by (match goal with |- scal ?x ?y = ?r => change (x * y = r) end; field). apply (is_RInt_scal (V := R_NormedModule)), int_sin3. }
      assert (X2 : is_RInt (fun th => - 3 * (cos th * cos th * sin th)) 0 (PI / 2) (Ropp 1)).
      { replace (Ropp 1) with (scal (- 3) (1 / 3)) by (match goal with |- scal ?x ?y = ?r => change (x * y = r) end; field). apply (is_RInt_scal (V := R_NormedModule)), int_cos2sin. }
      destruct j, i; cbn [comp unit_vec vx vy vz]; assumption.
  Qed.
End Unit.

Lemma load_force lambda mu j : mu <> 0 -> lambda + mu <> 0 -> is_made_by_force lambda mu (point_load lambda mu j) (unit_vec j).
Proof.
  intros M LM a A i. pose proof PI_RGT_0. exists (fun ph th => / (2 * PI) * pull lambda mu j i th ph). split; [|apply pull_integral; assumption].
  intros ph th _ H0. assert (C : 0 <= cos th) by (apply cos_ge_0; lra).
  assert (N : hemisphere a th ph <> vzero).
  { intros V. pose proof (hemi_norm a A th ph) as R1. rewrite V in R1. unfold vnorm, vnorm2, vzero in R1; cbn [vx vy vz] in R1.
      replace (0 * 0 + 0 * 0 + 0 * 0) with 0 in R1 by ring. rewrite sqrt_0 in R1. lra. }
  assert (Z : vz (hemisphere a th ph) <= 0) by (unfold hemisphere; cbn [vz]; nra).
  exists (jac_load lambda mu j (hemisphere a th ph)). split; [apply load_jac; assumption|].
  unfold traction. rewrite load_stress by assumption. symmetry. apply pull_eq; assumption.
Qed.

(** ** decay *)
Lemma load_decays lambda mu j : exists K, forall p, vz p <= 0 -> p <> vzero -> vnorm (point_load lambda mu j p) <= K / vnorm p.
Proof.
  pose (k := mu / (lambda + mu)). exists (Rabs (/ (4 * PI * mu)) * (3 * (2 + 2 * Rabs k))).
  intros [x y z] Z N. cbn [vz] in Z. unfold point_load. cbv zeta. fold k. cbn [vx vy vz].
  pose proof (r_pos x y z N) as RP. pose proof (r_sq x y z) as RS. set (r := vnorm (V3 x y z)) in *.
  assert (RZ : 0 < / r) by (apply Rinv_0_lt_compat; exact RP).
  (* the coordinates over r *)
  pose (X := x / r). pose (Y := y / r). pose (V := z / r). pose (w := / (1 - V)).
  assert (UN : X * X + Y * Y + V * V = 1).
  { unfold X, Y, V. replace 1 with (r * r / (r * r)) by (field; lra). rewrite RS at 1. field. lra. }
  assert (VZ : V <= 0) by (unfold V, Rdiv; nra).
  assert (W : 0 < w <= 1).
  { unfold w. split; [apply Rinv_0_lt_compat; lra|]. rewrite <- Rinv_1. apply Rinv_le_contravar; lra. }
  assert (B2 : forall s t, s * s + t * t <= 1 -> Rabs s <= 1 /\ Rabs (s * t) <= 1).
  { intros s t S. split; apply Rabs_le; split; nra. }
  assert (KB : forall m n, Rabs m <= 2 -> Rabs n <= 2 -> Rabs (m + k * n) <= 2 + 2 * Rabs k).
  { intros m n Hm Hn. eapply Rle_trans; [apply Rabs_triang|]. rewrite Rabs_mult. pose proof (Rabs_pos k). nra. }
  assert (NB : forall v, Rabs (vx v) <= 2 + 2 * Rabs k -> Rabs (vy v) <= 2 + 2 * Rabs k -> Rabs (vz v) <= 2 + 2 * Rabs k -> vnorm (vscal (/ r) v) <= 3 * (2 + 2 * Rabs k) * / r).
  { intros v H1 H2 H3. assert (E : vnorm (vscal (/ r) v) = / r * vnorm v).
    { unfold vnorm. rewrite <- (sqrt_square (/ r)) at 2 by lra. rewrite <- sqrt_mult_alt by nra. f_equal. unfold vnorm2, vscal; cbn [vx vy vz]. ring. }
    rewrite E, Rmult_comm. apply Rmult_le_compat_r; [lra|].
    assert (Q : vnorm v <= Rabs (vx v) + Rabs (vy v) + Rabs (vz v)).
    { unfold vnorm. pose proof (Rabs_pos (vx v)). pose proof (Rabs_pos (vy v)). pose proof (Rabs_pos (vz v)). rewrite <- (sqrt_square (Rabs (vx v) + Rabs (vy v) + Rabs (vz v))) by lra.
      apply sqrt_le_1_alt. unfold vnorm2. pose proof (Rsqr_abs (vx v)) as Q1. pose proof (Rsqr_abs (vy v)) as Q2. pose proof (Rsqr_abs (vz v)) as Q3. unfold Rsqr in Q1, Q2, Q3. rewrite Q1, Q2, Q3. nra. }
    lra. }
  assert (SC : forall v, vnorm (vscal (/ (4 * PI * mu)) v) = Rabs (/ (4 * PI * mu)) * vnorm v).
  { intros v. unfold vnorm. rewrite <- sqrt_Rsqr_abs. rewrite <- sqrt_mult_alt by apply Rle_0_sqr. f_equal. unfold vnorm2, vscal, Rsqr; cbn [vx vy vz]. ring. }
  rewrite SC. match goal with |- _ <= ?A * ?B / r => replace (A * B / r) with (A * (B * / r)) by (unfold Rdiv; ring) end. apply Rmult_le_compat_l; [apply Rabs_pos|].
  assert (WV : r - z <> 0) by lra.
  assert (XE : x = X * r) by (unfold X; field; lra). assert (YE : y = Y * r) by (unfold Y; field; lra). assert (ZE : z = V * r) by (unfold V; field; lra).
  assert (HX : X * X <= 1) by nra. assert (HY : Y * Y <= 1) by nra. assert (HV : V * V <= 1) by nra. assert (Hw : w * w <= 1) by nra.
  assert (P1 : forall s t, Rabs s <= 1 -> Rabs t <= 1 -> Rabs (s * t) <= 1).
  { intros s t S1 S2. rewrite Rabs_mult. pose proof (Rabs_pos s). pose proof (Rabs_pos t). nra. }
  assert (AX : Rabs X <= 1) by (apply Rabs_le; split; nra). assert (AY : Rabs Y <= 1) by (apply Rabs_le; split; nra). assert (AV : Rabs V <= 1) by (apply Rabs_le; split; nra). assert (AW : Rabs w <= 1) by (apply Rabs_le; lra).
  assert (D : forall s t, Rabs s <= 1 -> Rabs t <= 1 -> Rabs (s - t) <= 2).
  { intros s t S1 S2. eapply Rle_trans; [apply Rabs_triang|]. rewrite Rabs_Ropp. lra. }
  assert (D' : forall s t, Rabs s <= 1 -> Rabs t <= 1 -> Rabs (s + t) <= 2).
  { intros s t S1 S2. eapply Rle_trans; [apply Rabs_triang|]. lra. }
  assert (L : forall s, Rabs s <= 1 -> Rabs s <= 2) by (intros; lra). assert (O : Rabs 1 <= 1) by (rewrite Rabs_R1; lra).
  destruct j.
  - replace (V3 _ _ _) with (vscal (/ r) (V3 (1 + X * X + k * (w - X * X * (w * w))) (X * Y + k * (- (X * Y * (w * w)))) (X * V + k * (- (X * w))))).
    2:{ unfold vscal, w; cbn [vx vy vz]. rewrite XE, YE, ZE. apply f_equal3; field; repeat split; nra. }
    apply NB; cbn [vx vy vz]; apply KB; rewrite ?Rabs_Ropp; auto 10.
  - replace (V3 _ _ _) with (vscal (/ r) (V3 (X * Y + k * (- (X * Y * (w * w)))) (1 + Y * Y + k * (w - Y * Y * (w * w))) (Y * V + k * (- (Y * w))))).
    2:{ unfold vscal, w; cbn [vx vy vz]. rewrite XE, YE, ZE. apply f_equal3; field; repeat split; nra. }
    apply NB; cbn [vx vy vz]; apply KB; rewrite ?Rabs_Ropp; auto 10.
  - replace (V3 _ _ _) with (vscal (/ r) (V3 (X * V + k * (X * w)) (Y * V + k * (Y * w)) (1 + V * V + k * 1))).
    2:{ unfold vscal, w; cbn [vx vy vz]. rewrite XE, YE, ZE. apply f_equal3; field; repeat split; nra. }
    apply NB; cbn [vx vy vz]; apply KB; rewrite ?Rabs_Ropp; auto 10.
Qed.
