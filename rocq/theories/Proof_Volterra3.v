(** The point-source kernels are the tractions of the point loads (C130). *)
From Coq Require Import Reals Lra Psatz.
From Coquelicot Require Import Coquelicot.
From Verif Require Import Vec3 Calculus Deriv Integral Spec_Oksar Spec_Volterra Proof_Volterra Proof_Volterra2.
Open Scope R_scope.

Section Work.
  Variables lambda mu sd cd q : R.
  Hypothesis U : sd * sd + cd * cd = 1.
  Hypothesis Q : q <> 0.
  Notation k := (mu / (lambda + mu)).
  Notation rr x e := (o_R x e q).
  Notation dd e := (e * sd - q * cd).
  Notation yy e := (e * cd + q * sd).
  Notation DD x e := (rr x e + dd e).
  Definition at_point (x e : R) : vec3 := V3 (- x) (- yy e) (- dd e).
  Lemma at_norm x e : vnorm (at_point x e) = rr x e.
  Proof. unfold vnorm, o_R. f_equal. unfold vnorm2, at_point; cbn [vx vy vz]. assert (S2 : sd * sd = 1 - cd * cd) by lra. ring [S2]. Qed.
  Definition work1 (j : axis) (x e : R) : R := vdot (V3 1 0 0) (mvec (sload lambda mu j (at_point x e)) (V3 0 (- sd) cd)).
  Definition work2 (j : axis) (x e : R) : R := vdot (V3 0 cd sd) (mvec (sload lambda mu j (at_point x e)) (V3 0 (- sd) cd)).
  Definition along1 (j : axis) (x e : R) : R :=
    match j with
    | AX => - (x * q) / (rr x e * rr x e * rr x e) + x * q / (rr x e * (q * q + e * e)) + k * (x * yy e / (rr x e * (DD x e * DD x e))) * sd
    | AY => - (yy e * q) / (rr x e * rr x e * rr x e) + k * (- / DD x e + yy e * yy e / (rr x e * (DD x e * DD x e))) * sd
    | AZ => - (dd e * q) / (rr x e * rr x e * rr x e) + k * (yy e / (rr x e * DD x e)) * sd
    end.
  Definition along2 (j : axis) (x e : R) : R :=
    match j with
    | AX => - (q * e) / (rr x e * rr x e * rr x e) - k * (- / rr x e - (- / DD x e + yy e * yy e / (rr x e * (DD x e * DD x e)))) * (sd * cd)
    | AY => q * cd * / (rr x e * (rr x e + x)) + yy e * q * (- e * (2 * rr x e + x) / (rr x e * rr x e * rr x e * ((rr x e + x) * (rr x e + x)))) + cd * (x * q / (rr x e * (q * q + e * e))) - k * (x * yy e / (rr x e * (DD x e * DD x e))) * (sd * cd)
    | AZ => q * sd * / (rr x e * (rr x e + x)) + dd e * q * (- e * (2 * rr x e + x) / (rr x e * rr x e * rr x e * ((rr x e + x) * (rr x e + x)))) + sd * (x * q / (rr x e * (q * q + e * e))) - k * (x / (rr x e * DD x e)) * (sd * cd)
    end.
  Section At.
    Variables x e : R.
    Hypothesis D0 : 0 <= dd e.
    Ltac prep := pose proof (rr_x q Q x e) as DR; pose proof (dd_pos sd cd q Q x e D0) as DP; pose proof (rr_pos q Q x e) as P; pose proof (rx_pos q Q x e) as XP; pose proof (rr_sq q Q x e) as RS;
      pose proof (qe_pos q Q e) as QE; 
      assert (Nx : rr x e * (rr x e + x) <> 0) by (apply Rmult_integral_contrapositive; split; lra);
      assert (Nxx : rr x e * rr x e * rr x e * ((rr x e + x) * (rr x e + x)) <> 0) by (repeat apply Rmult_integral_contrapositive_currified; lra);
      assert (N3 : rr x e * rr x e * rr x e <> 0) by (repeat apply Rmult_integral_contrapositive_currified; lra);
      assert (Nq : rr x e * (q * q + e * e) <> 0) by (apply Rmult_integral_contrapositive; split; lra);
      assert (Nd : rr x e * DD x e <> 0) by (apply Rmult_integral_contrapositive; split; lra);
      assert (Ndd : rr x e * (DD x e * DD x e) <> 0) by (repeat apply Rmult_integral_contrapositive_currified; lra).
    Lemma slope1 j : is_derive (fun x => along1 j x e) x (- work1 j x e).
    Proof.
      unfold work1, sload. cbv zeta. rewrite at_norm. unfold along1, at_point. cbn [vx vy vz]. prep.
      assert (RS2 : q * q + e * e = (rr x e - x) * (rr x e + x)) by lra. 
      destruct j; eapply is_derive_eq; [der; cbv beta; first [assumption|lra]|cbv beta|der; cbv beta; first [assumption|lra]|cbv beta|der; cbv beta; first [assumption|lra]|cbv beta].
      all: clear DR Nx Nxx N3 Nq Nd Ndd; unfold mvec, vdot; cbn [vx vy vz m0 m1 m2]; replace (rr x e - - dd e) with (DD x e) by ring.
      all: assert (X2 : x * x = rr x e * rr x e - e * e - q * q) by lra; assert (S2 : sd * sd = 1 - cd * cd) by lra; generalize dependent (rr x e); intros r; intros; generalize k; intros k0.
      all: field [X2 S2]; repeat split; lra.
    Qed.
    Lemma slope2 j : is_derive (fun x => along2 j x e) x (- work2 j x e).
    Proof.
      unfold work2, sload. cbv zeta. rewrite at_norm. unfold along2, at_point. cbn [vx vy vz]. prep.
      assert (RS2 : q * q + e * e = (rr x e - x) * (rr x e + x)) by lra. 
      destruct j; eapply is_derive_eq; [der; cbv beta; first [assumption|lra]|cbv beta|der; cbv beta; first [assumption|lra]|cbv beta|der; cbv beta; first [assumption|lra]|cbv beta].
      all: clear DR Nx Nxx N3 Nq Nd Ndd; unfold mvec, vdot; cbn [vx vy vz m0 m1 m2]; replace (rr x e - - dd e) with (DD x e) by ring.
      all: assert (X2 : x * x = rr x e * rr x e - e * e - q * q) by lra; assert (S2 : sd * sd = 1 - cd * cd) by lra; generalize dependent (rr x e); intros r; intros; generalize k; intros k0.
      all: field [X2 S2]; repeat split; lra.
    Qed.
    Lemma work_cont j (f : bool) : continuous (fun x => if f then work1 j x e else work2 j x e) x.
    Proof.
      apply (ex_derive_continuous (K := R_AbsRing) (V := R_NormedModule)). prep. pose proof (rr_pos q Q x e) as P1.
      assert (M3' : rr x e ^ 3 <> 0) by (apply pow_nonzero; lra). assert (M5 : rr x e ^ 5 <> 0) by (apply pow_nonzero; lra).
      assert (K : rr x e - - dd e <> 0) by lra. assert (K1 : rr x e * (rr x e - - dd e) <> 0) by (apply Rmult_integral_contrapositive_currified; lra).
      assert (K2 : rr x e * (rr x e - - dd e) ^ 2 <> 0) by (apply Rmult_integral_contrapositive_currified; [lra|apply pow_nonzero; lra]).
      assert (K3 : rr x e ^ 3 * (rr x e - - dd e) ^ 2 <> 0) by (apply Rmult_integral_contrapositive_currified; apply pow_nonzero; lra).
      assert (K4 : rr x e ^ 3 * (rr x e - - dd e) ^ 3 <> 0) by (apply Rmult_integral_contrapositive_currified; apply pow_nonzero; lra).
      assert (VN : vnorm (V3 (- x) (- yy e) (- dd e)) = rr x e) by apply at_norm.
      assert (DV : is_derive (fun x => vnorm (V3 (- x) (- yy e) (- dd e))) x (x / rr x e)).
      { apply (is_derive_ext (fun x => rr x e)); [intros t; symmetry; apply at_norm|exact DR]. }
      clear DR. destruct f; unfold work1, work2, sload, mvec, vdot, at_point; destruct j; cbn [vx vy vz m0 m1 m2]; eexists; der; cbv beta; rewrite ?VN; first [assumption|lra].
    Qed.
  End At.

  (** ** along the dip *)
  Definition closed1 (j : axis) (x e : R) : R := match j with AX => fst3 | AY => snd3 | AZ => trd3 end (o_strike k sd cd x e q).
  Definition closed2 (j : axis) (x e : R) : R := match j with AX => fst3 | AY => snd3 | AZ => trd3 end (o_dip k sd cd x e q).
  Lemma dip1 j x e : 0 <= dd e -> is_derive (fun e => closed1 j x e) e (along1 j x e).
  Proof. intros D. destruct j; [apply d_s1|apply d_s2|apply d_s3]; assumption. Qed.
  Lemma dip2 j x e : 0 <= dd e -> is_derive (fun e => closed2 j x e) e (along2 j x e).
  Proof. intros D. destruct j; [apply d_d1|apply d_d2|apply d_d3]; assumption. Qed.
  Lemma along_cont j (f : bool) x e : 0 <= dd e -> continuous (fun e => if f then along1 j x e else along2 j x e) e.
  Proof.
    intros D0. apply (ex_derive_continuous (K := R_AbsRing) (V := R_NormedModule)). pose proof (rr_e q Q x e) as DR. pose proof (dd_pos sd cd q Q x e D0) as DP; pose proof (rr_pos q Q x e) as P; pose proof (rx_pos q Q x e) as XP; pose proof (qe_pos q Q e) as QE.
    assert (Nx : rr x e * (rr x e + x) <> 0) by (apply Rmult_integral_contrapositive; split; lra).
    assert (Nxx : rr x e * rr x e * rr x e * ((rr x e + x) * (rr x e + x)) <> 0) by (repeat apply Rmult_integral_contrapositive_currified; lra).
    assert (N3 : rr x e * rr x e * rr x e <> 0) by (repeat apply Rmult_integral_contrapositive_currified; lra).
    assert (Nq : rr x e * (q * q + e * e) <> 0) by (apply Rmult_integral_contrapositive; split; lra).
    assert (Nd : rr x e * DD x e <> 0) by (apply Rmult_integral_contrapositive; split; lra).
    assert (Ndd : rr x e * (DD x e * DD x e) <> 0) by (repeat apply Rmult_integral_contrapositive_currified; lra).
    destruct f, j; unfold along1, along2; eexists; der; cbv beta; first [assumption|lra].
  Qed.
End Work.

(** ** two integrations *)
Lemma double_FTC (F G W : R -> R -> R) X p al1 al2 aw1 aw2 : al1 <= al2 -> aw1 <= aw2 ->
  (forall x t, aw1 <= t <= aw2 -> is_derive (fun e => F x e) (p - t) (G x (p - t))) ->
  (forall x t, aw1 <= t <= aw2 -> continuous (fun e => G x e) (p - t)) ->
  (forall x t, aw1 <= t <= aw2 -> is_derive (fun x => G x (p - t)) x (- W x (p - t))) ->
  (forall x t, aw1 <= t <= aw2 -> continuous (fun x => W x (p - t)) x) ->
  is_double_integral (fun s t => W (X - s) (p - t)) al1 al2 aw1 aw2 (- chinnery F X p al1 al2 aw1 aw2).
Proof.
  intros A B DF CG DG CW. exists (fun t => G (X - al2) (p - t) - G (X - al1) (p - t)). split.
  - intros t T. apply (FTC (fun s => G (X - s) (p - t)) (fun s => W (X - s) (p - t))); [exact A| |].
    + intros s _. eapply is_derive_eq; [apply (D_comp (fun x => G x (p - t)) (fun s => X - s)); [apply DG, T|der]|]. ring.
    + intros s _. apply (continuous_comp (fun s => X - s) (fun x => W x (p - t))); [|apply CW, T]. apply (ex_derive_continuous (K := R_AbsRing) (V := R_NormedModule)). eexists. der.
  - assert (C : forall x t, aw1 <= t <= aw2 -> continuous (fun t => G x (p - t)) t).
    { intros x t T. apply (continuous_comp (fun t => p - t) (fun e => G x e)); [|apply CG, T]. apply (ex_derive_continuous (K := R_AbsRing) (V := R_NormedModule)). eexists. der. }
    unfold chinnery. match goal with |- is_RInt _ _ _ ?v => replace v with ((- F (X - al2) (p - aw2) + F (X - al1) (p - aw2)) - (- F (X - al2) (p - aw1) + F (X - al1) (p - aw1))) by ring end.
    apply (FTC (fun t => - F (X - al2) (p - t) + F (X - al1) (p - t))); [exact B| |].
    + intros t T. assert (E : forall x, is_derive (fun t => F x (p - t)) t (- G x (p - t))).
      { intros x. eapply is_derive_eq; [apply (D_comp (fun e => F x e) (fun t => p - t)); [apply DF, T|der]|]. ring. }
      pose proof (E (X - al2)). pose proof (E (X - al1)). eapply is_derive_eq; [der|]. ring.
    + intros t T. apply (continuous_minus (V := R_NormedModule)); apply C, T.
Qed.
