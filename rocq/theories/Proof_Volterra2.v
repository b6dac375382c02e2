(** Okada's closed form is the integral of the point-source kernels (C130). *)
From Coq Require Import Reals Lra Psatz.
From Coquelicot Require Import Coquelicot.
From Verif Require Import Vec3 Calculus Deriv Spec_Oksar.
Open Scope R_scope.

Section Kernels.
  Variables k sd cd q : R.
  Hypothesis U : sd * sd + cd * cd = 1.
  Hypothesis Q : q <> 0.
  Notation rr x e := (o_R x e q).
  Notation dd e := (e * sd - q * cd).
  Notation yy e := (e * cd + q * sd).
  Notation DD x e := (rr x e + dd e).

  Lemma rr_arg x e : 0 < x ^ 2 + e ^ 2 + q ^ 2. Proof. nra. Qed.
  Lemma rr_pos x e : 0 < rr x e. Proof. apply sqrt_lt_R0, rr_arg. Qed.
  Lemma rr_sq x e : rr x e * rr x e = x * x + e * e + q * q. Proof. unfold o_R. rewrite sqrt_sqrt; [ring|]. pose proof (rr_arg x e). lra. Qed.
  Lemma rr_e x e : is_derive (fun e => rr x e) e (e / rr x e).
  Proof. pose proof (rr_pos x e). unfold o_R in *. eapply is_derive_eq; [der; apply rr_arg|]. cbn [INR pow Init.Nat.pred] in *. field. lra. Qed.
  Lemma rr_x x e : is_derive (fun x => rr x e) x (x / rr x e).
  Proof. pose proof (rr_pos x e). unfold o_R in *. eapply is_derive_eq; [der; apply rr_arg|]. cbn [INR pow Init.Nat.pred] in *. field. lra. Qed.
  Lemma re_pos x e : 0 < rr x e + e.
  Proof. pose proof (rr_pos x e) as P. pose proof (rr_sq x e) as S. set (r := rr x e) in *. assert (e * e < r * r) by nra. nra. Qed.
  Lemma rx_pos x e : 0 < rr x e + x.
  Proof. pose proof (rr_pos x e) as P. pose proof (rr_sq x e) as S. set (r := rr x e) in *. assert (x * x < r * r) by nra. nra. Qed.
  Lemma qe_pos e : 0 < q * q + e * e. Proof. nra. Qed.

  Lemma d_theta x e : is_derive (fun e => o_theta x e q) e (x * q / (rr x e * (q * q + e * e))).
  Proof.
    unfold o_theta. destruct (Req_EM_T q 0) as [E|_]; [contradiction|]. pose proof (rr_pos x e) as P. pose proof (rr_sq x e) as S. pose proof (rr_e x e) as DR. pose proof (qe_pos e) as QE.
    assert (N : q * rr x e <> 0) by (apply Rmult_integral_contrapositive; split; lra).
    eapply is_derive_eq; [der; cbv beta; exact N|]. cbv beta. assert (Pq : 0 < q * q) by nra.
    assert (X2 : x * x = rr x e * rr x e - e * e - q * q) by lra. generalize dependent (rr x e). intros r P S DR N X2.
    assert (A : 0 < q * q * (r * r) + x * x * (e * e)) by nra.
    field [X2]. repeat split; try lra.
  Qed.

  Section At.
  Variables x e : R.
  Hypothesis D0 : 0 <= dd e.
  Lemma dd_pos : 0 < DD x e. Proof. pose proof (rr_pos x e). lra. Qed.
  Lemma d_I4 : is_derive (fun e => o_I4 k sd cd x e q) e (k * (yy e / (rr x e * DD x e))).
  Proof.
    unfold o_I4, o_d. pose proof (rr_e x e) as DR. pose proof dd_pos as DP. pose proof (re_pos x e) as EP. pose proof (rr_pos x e) as P. destruct (Req_EM_T cd 0) as [E|E].
    - eapply is_derive_eq; [der; cbv beta; lra|]. cbv beta. subst cd. assert (S2 : sd * sd = 1) by lra. generalize dependent (rr x e). intros. field [S2]. repeat split; lra.
    - eapply is_derive_eq; [der; cbv beta; lra|]. cbv beta. assert (S2 : sd * sd = 1 - cd * cd) by lra. generalize dependent (rr x e). intros. field [S2]. repeat split; lra.
  Qed.
  Lemma d_I3 : is_derive (fun e => o_I3 k sd cd x e q) e (k * (/ DD x e - / rr x e - yy e * yy e / (rr x e * (DD x e * DD x e)))).
  Proof.
    unfold o_I3. pose proof d_I4 as D4. unfold o_d, o_y. pose proof (rr_e x e) as DR. pose proof dd_pos as DP. pose proof (re_pos x e) as EP. pose proof (rr_pos x e) as P. pose proof (rr_sq x e) as RS. destruct (Req_EM_T cd 0) as [E|E].
    - assert (N2 : DD x e ^ 2 <> 0) by (apply Rgt_not_eq, pow_lt, DP). clear D4. eapply is_derive_eq; [der; cbv beta; first [exact N2|lra]|]. cbv beta. cbn [INR pow Init.Nat.pred]. rewrite E. assert (S2 : sd * sd = 1) by (rewrite E in U; lra). rewrite E in DP. generalize dependent (rr x e). intros.
      field_simplify_eq [S2]; [|repeat split; lra]. ring [S2].
    - eapply is_derive_eq; [der; cbv beta; lra|]. cbv beta. assert (S2 : sd * sd = 1 - cd * cd) by lra. generalize dependent (rr x e). intros. field [S2]. repeat split; lra.
  Qed.
  Lemma d_I2 : is_derive (fun e => o_I2 k sd cd x e q) e (k * (- / DD x e + yy e * yy e / (rr x e * (DD x e * DD x e)))).
  Proof.
    unfold o_I2. pose proof d_I3 as D3. pose proof (rr_e x e) as DR. pose proof dd_pos as DP. pose proof (re_pos x e) as EP. pose proof (rr_pos x e) as P.
    eapply is_derive_eq; [der; cbv beta; lra|]. cbv beta. clear D3 DR. generalize dependent (rr x e). intros. field. repeat split; lra.
  Qed.
  Lemma half_angle X s c r : 0 < X -> 0 < r -> 0 < r + (e * s - q * c) -> s * s + c * c = 1 -> r * r = X * X + e * e -> x * x + q * q = X * X -> x <> 0 -> c <> 0 ->
    let A := e * (X + q * c) + X * (r + X) * s in let B := x * (r + X) * c in
    ((1 * (X + q * c) + X * (e / r) * s) * B - A * (x * (e / r) * c)) / (B * B) / (1 + A / B * (A / B)) = c / 2 * (x / (r * (r + (e * s - q * c)))).
  Proof.
    intros XP P DP US RS XS Nx Nc A B.
    assert (NB : B <> 0) by (unfold B; repeat apply Rmult_integral_contrapositive_currified; lra).
    assert (AB : A * A + B * B = 2 * (r + X) * X * (r + (e * s - q * c)) * (X + q * c)).
    { unfold A, B. assert (E1 : e * e = r * r - X * X) by lra. assert (E2 : q * q = X * X - x * x) by lra. assert (E3 : s * s = 1 - c * c) by lra. ring [E1 E2 E3]. }
    assert (SP : 0 < A * A + B * B) by nra.
    assert (NN : ((1 * (X + q * c) + X * (e / r) * s) * B - A * (x * (e / r) * c)) = x * c * ((r + X) * X * (X + q * c)) / r).
    { unfold A, B. assert (E1 : e * e = r * r - X * X) by lra. field [E1]. lra. }
    transitivity ((x * c * ((r + X) * X * (X + q * c)) / r) / (A * A + B * B)).
    - rewrite NN. clearbody A B. field. repeat split; lra.
    - assert (NZ : X + q * c <> 0) by (intros E; rewrite E in AB; lra). rewrite AB. field. repeat split; lra.
  Qed.
  Lemma d_I5 : is_derive (fun e => o_I5 k sd cd x e q) e (k * (x / (rr x e * DD x e))).
  Proof.
    unfold o_I5, o_d. pose proof (rr_e x e) as DR. pose proof dd_pos as DP. pose proof (rr_pos x e) as P. pose proof (rr_sq x e) as RS. destruct (Req_EM_T cd 0) as [E|E].
    - eapply is_derive_eq; [der; cbv beta; lra|]. cbv beta. subst cd. assert (S2 : sd * sd = 1) by lra. generalize dependent (rr x e). intros. field [S2]. repeat split; lra.
    - destruct (Req_EM_T x 0) as [E0|E0].
      + eapply is_derive_eq; [der|]. rewrite E0. unfold Rdiv. ring.
      + assert (XP : 0 < o_X x q) by (unfold o_X; apply sqrt_lt_R0; nra). assert (XS : o_X x q * o_X x q = x * x + q * q) by (unfold o_X; rewrite sqrt_sqrt; [ring|nra]).
        set (X := o_X x q) in *. assert (NB : x * (rr x e + X) * cd <> 0) by (repeat apply Rmult_integral_contrapositive_currified; lra).
        assert (HA := half_angle X sd cd (rr x e) XP P DP U ltac:(lra) (eq_sym XS) E0 E). cbv zeta in HA.
        eapply is_derive_eq; [der; cbv beta; exact NB|]. cbv beta.
        match goal with |- k * (2 / cd) * ?T = _ => match type of HA with ?L = ?Rh => replace T with L; [rewrite HA|] end end.
        * clear HA DR NB. generalize dependent (rr x e). intros. field. repeat split; lra.
        * f_equal; f_equal; field; lra.
  Qed.
  Lemma d_I1 : is_derive (fun e => o_I1 k sd cd x e q) e (k * (x * yy e / (rr x e * (DD x e * DD x e)))).
  Proof.
    unfold o_I1, o_d. pose proof d_I5 as D5. pose proof (rr_e x e) as DR. pose proof dd_pos as DP. pose proof (rr_pos x e) as P. destruct (Req_EM_T cd 0) as [E|E].
    - assert (N2 : DD x e ^ 2 <> 0) by (apply Rgt_not_eq, pow_lt, DP). clear D5. eapply is_derive_eq; [der; cbv beta; first [exact N2|lra]|]. cbv beta. cbn [INR pow Init.Nat.pred].
      subst cd. assert (S2 : sd * sd = 1) by lra. clear N2. generalize dependent (rr x e). intros. field [S2]. repeat split; lra.
    - eapply is_derive_eq; [der; cbv beta; lra|]. cbv beta. assert (S2 : sd * sd = 1 - cd * cd) by lra. clear D5. generalize dependent (rr x e). intros. field [S2]. repeat split; lra.
  Qed.

  (** ** the closed forms along the dip *)
  Notation g1 := (x * yy e / (rr x e * (DD x e * DD x e))).
  Notation g2 := (- / DD x e + yy e * yy e / (rr x e * (DD x e * DD x e))).
  Notation g3 := (- / rr x e - g2).
  Notation g4 := (yy e / (rr x e * DD x e)).
  Notation g5 := (x / (rr x e * DD x e)).
  Notation gt := (x * q / (rr x e * (q * q + e * e))).
  Notation r3 := (rr x e * rr x e * rr x e).
  Ltac prep := pose proof (rr_e x e) as DR; pose proof dd_pos as DP; pose proof (rr_pos x e) as P; pose proof (re_pos x e) as EP; pose proof (rx_pos x e) as XP; pose proof (rr_sq x e) as RS;
    pose proof (qe_pos e) as QE; pose proof (d_theta x e) as DT;
    assert (Ne : rr x e * (rr x e + e) <> 0) by (apply Rmult_integral_contrapositive; split; lra); assert (Nx : rr x e * (rr x e + x) <> 0) by (apply Rmult_integral_contrapositive; split; lra).
  Ltac fin := generalize dependent (rr x e); intros; field; repeat split; lra.
  Lemma d_s1 : is_derive (fun e => fst3 (o_strike k sd cd x e q)) e (- (x * q) / r3 + gt + k * g1 * sd).
  Proof.
    unfold fst3, o_strike; cbn [fst snd]. prep. pose proof d_I1 as D1. eapply is_derive_eq; [der; cbv beta; first [assumption|lra]|]. cbv beta. clear DT D1 DR Ne Nx. fin.
  Qed.
  Lemma d_s2 : is_derive (fun e => snd3 (o_strike k sd cd x e q)) e (- (yy e * q) / r3 + k * g2 * sd).
  Proof.
    unfold snd3, o_strike, o_y; cbn [fst snd]. prep. pose proof d_I2 as D1. eapply is_derive_eq; [der; cbv beta; first [assumption|lra]|]. cbv beta. clear DT D1 DR Ne Nx. fin.
  Qed.
  Lemma d_s3 : is_derive (fun e => trd3 (o_strike k sd cd x e q)) e (- (dd e * q) / r3 + k * g4 * sd).
  Proof.
    unfold trd3, o_strike, o_d; cbn [fst snd]. prep. pose proof d_I4 as D1. eapply is_derive_eq; [der; cbv beta; first [assumption|lra]|]. cbv beta. clear DT D1 DR Ne Nx. fin.
  Qed.
  Lemma d_d1 : is_derive (fun e => fst3 (o_dip k sd cd x e q)) e (- (q * e) / r3 - k * g3 * (sd * cd)).
  Proof.
    unfold fst3, o_dip; cbn [fst snd]. prep. pose proof d_I3 as D1. eapply is_derive_eq; [der; cbv beta; first [assumption|lra]|]. cbv beta. clear DT D1 DR Ne Nx. fin.
  Qed.
  Notation hx := (/ (rr x e * (rr x e + x))).
  Notation hd := (- e * (2 * rr x e + x) / (r3 * ((rr x e + x) * (rr x e + x)))).
  Lemma d_d2 : is_derive (fun e => snd3 (o_dip k sd cd x e q)) e (q * cd * hx + yy e * q * hd + cd * gt - k * g1 * (sd * cd)).
  Proof.
    unfold snd3, o_dip, o_y; cbn [fst snd]. prep. pose proof d_I1 as D1. eapply is_derive_eq; [der; cbv beta; first [assumption|lra]|]. cbv beta. clear DT D1 DR Ne Nx. fin.
  Qed.
  Lemma d_d3 : is_derive (fun e => trd3 (o_dip k sd cd x e q)) e (q * sd * hx + dd e * q * hd + sd * gt - k * g5 * (sd * cd)).
  Proof.
    unfold trd3, o_dip, o_d; cbn [fst snd]. prep. pose proof d_I5 as D1. eapply is_derive_eq; [der; cbv beta; first [assumption|lra]|]. cbv beta. clear DT D1 DR Ne Nx. fin.
  Qed.
  End At.
End Kernels.
