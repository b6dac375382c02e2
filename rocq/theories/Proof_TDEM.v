(** The transient electric dipole (C70). *)
From Coq Require Import Reals Lra.
From Coquelicot Require Import Coquelicot.
From Verif Require Import Vec3 Calculus Deriv Radial Model_TDEM SpecFun Spec_TDEM Model_Static Proof_Static2.
Open Scope R_scope.

Lemma theta_pos t sg mu : 0 < t -> 0 < sg -> 0 < mu -> 0 < theta t sg mu.
Proof. intros A B D. unfold theta. apply sqrt_lt_R0. apply Rdiv_lt_0_compat; [apply Rmult_lt_0_compat; assumption|lra]. Qed.
Lemma theta_sq t sg mu : 0 < t -> 0 < sg -> 0 < mu -> theta t sg mu ^ 2 = mu * sg / (4 * t).
Proof.
  intros A B D. unfold theta. rewrite pow_2. apply sqrt_sqrt. left.
  apply Rdiv_lt_0_compat; [apply Rmult_lt_0_compat; assumption|lra].
Qed.
Lemma D_theta t sg mu : 0 < t -> 0 < sg -> 0 < mu -> is_derive (fun t => theta t sg mu) t (- theta t sg mu / (2 * t)).
Proof.
  intros A B D. pose proof (theta_pos t sg mu A B D) as P. pose proof (theta_sq t sg mu A B D) as S.
  unfold theta in *. eapply is_derive_eq.
  - der; [lra|]. apply Rdiv_lt_0_compat; [apply Rmult_lt_0_compat; assumption|lra].
  - set (th := sqrt (mu * sg / (4 * t))) in *. clearbody th.
    assert (mu * sg = 4 * t * th ^ 2) by (rewrite S; field; lra).
    apply (Rmult_eq_reg_l (2 * th * (4 * t * (4 * t)))); [|apply Rgt_not_eq; repeat apply Rmult_lt_0_compat; lra].
    field_simplify; [|lra|lra]. nra.
Qed.

Ltac nz := repeat match goal with |- _ * _ <> 0 => apply Rmult_integral_contrapositive_currified | |- _ ^ _ <> 0 => apply pow_nonzero end; lra.

Section Dipole.
  Variables (I0 l : R) (n : vec3) (sg mu : R).
  Hypothesis Hs : 0 < sg.
  Hypothesis Hm : 0 < mu.

  Definition kA (th r : R) : R := I0 * l / (4 * PI * r) * erf (th * r).
  Definition kH (th r : R) : R := I0 * l / (4 * PI * r ^ 2) * (erf (th * r) - 2 / sqrt PI * (th * r) * exp (- (th * r) ^ 2)) * / r.
  Definition kD (t th r : R) : R := I0 * l / (4 * PI * r ^ 2) * (-2 * (th * r) ^ 3 / (sqrt PI * t) * exp (- (th * r) ^ 2)) * / r.
  Definition kE0 (th r : R) : R :=
    - (I0 * l / (4 * PI * sg * r ^ 3) * (erf (th * r) - (4 * (th * r) ^ 2 + 2) * (th * r / sqrt PI * exp (- (th * r) ^ 2)))).
  Definition kE1 (th r : R) : R :=
    I0 * l / (4 * PI * sg * r ^ 3) * (3 * erf (th * r) - (4 * (th * r) ^ 2 + 6) * (th * r / sqrt PI * exp (- (th * r) ^ 2))) * / r * / r.

  Ltac start := pose proof PI_RGT_0; pose proof sqrt_PI_pos.
  Ltac abs_all th r :=
    repeat match goal with
    | |- context [erf ?x] => let e := fresh "e" in set (e := erf x) in *; clearbody e
    | |- context [exp ?x] => let e := fresh "e" in set (e := exp x) in *; clearbody e
    | |- context [sqrt PI] => let w := fresh "w" in set (w := sqrt PI) in *; clearbody w
    end; cbn [INR Init.Nat.pred].

  Lemma D_erf_lin th r : is_derive (fun r => erf (th * r)) r (th * (2 / sqrt PI * exp (- (th * r) ^ 2))).
  Proof. eapply is_derive_eq; [apply (D_erf_comp (fun r => th * r)); der|]. ring. Qed.

  Lemma D_kA th r : 0 < r -> is_derive (kA th) r (- (r * kH th r)).
  Proof.
    intro Hr. start. pose proof (D_erf_lin th r) as X. unfold kA, kH. eapply is_derive_eq; [der|]. { nz. }
    abs_all th r. field. repeat split; nra.
  Qed.

  (** curl of H: f = h' r + 2 h, g = - h'/r *)
  Lemma D_kH th r : 0 < r -> is_derive (kH th) r (- (r * (sg * kE1 th r))) /\ sg * kE0 th r = - (r * (sg * kE1 th r)) * r + 2 * kH th r.
  Proof.
    intro Hr. start. pose proof (D_erf_lin th r) as X. split.
    - unfold kH, kE1. eapply is_derive_eq; [der|]. { nz. } { lra. }
      abs_all th r. field. repeat split; try lra.
    - unfold kE0, kE1, kH. abs_all th r. field. repeat split; try lra.
  Qed.

  Definition dkE0 (th r : R) : R :=
    I0 * l / (4 * PI * sg * r ^ 4) * (3 * erf (th * r) - (6 * (th * r) + 4 * (th * r) ^ 3 + 8 * (th * r) ^ 5) / sqrt PI * exp (- (th * r) ^ 2)).
  Lemma D_kE0 th r : 0 < r -> is_derive (kE0 th) r (dkE0 th r).
  Proof.
    intro Hr. start. pose proof (D_erf_lin th r) as X. unfold kE0, dkE0. eapply is_derive_eq; [der|].
    { nz. } { lra. }
    abs_all th r. field. repeat split; try lra.
  Qed.
  Definition dkE1 (th r : R) : R :=
    - (I0 * l / (4 * PI * sg * r ^ 6) * (15 * erf (th * r) - (30 * (th * r) + 20 * (th * r) ^ 3 + 8 * (th * r) ^ 5) / sqrt PI * exp (- (th * r) ^ 2))).
  Lemma D_kE1 th r : 0 < r -> is_derive (kE1 th) r (dkE1 th r).
  Proof.
    intro Hr. start. pose proof (D_erf_lin th r) as X. unfold kE1, dkE1. eapply is_derive_eq; [der|].
    { nz. } { lra. } { lra. } { lra. }
    abs_all th r. field. repeat split; try lra.
  Qed.

  (** Faraday *)
  Lemma faraday_scalar t th r : 0 < t -> 0 < r -> th ^ 2 = mu * sg / (4 * t) ->
    dkE0 th r / r - kE1 th r = mu * kD t th r.
  Proof.
    intros Ht Hr E. start. unfold dkE0, kE1, kD.
    assert (M : mu = 4 * t * th ^ 2 / sg) by (rewrite E; field; lra). rewrite M.
    abs_all th r. field. repeat split; try lra.
  Qed.

  Lemma div_scalar th r : 0 < r -> dkE0 th r / r + r * dkE1 th r + 4 * kE1 th r = 0.
  Proof. intro Hr. start. unfold dkE0, dkE1, kE1. abs_all th r. field. repeat split; try lra. Qed.

  (** the time derivative *)
  Lemma D_kH_time t r : 0 < t -> 0 < r -> is_derive (fun t => kH (theta t sg mu) r) t (kD t (theta t sg mu) r).
  Proof.
    intros Ht Hr. start. pose proof (D_theta t sg mu Ht Hs Hm) as DT.
    assert (X : is_derive (fun t => erf (theta t sg mu * r)) t
              ((- theta t sg mu / (2 * t) * r) * (2 / sqrt PI * exp (- (theta t sg mu * r) ^ 2)))).
    { eapply is_derive_eq; [apply (D_erf_comp (fun t => theta t sg mu * r)); der|]. ring. }
    unfold kH, kD. eapply is_derive_eq; [der|].
    set (th := theta t sg mu). clearbody th. abs_all th r. field. repeat split; try lra.
  Qed.
End Dipole.

Lemma te_A_radial s p : te_A s p = rfield (kA (te_current s) (te_length s) (td_theta (te_med s))) (fun _ => 0) (te_orient s) (vsub p (te_loc s)).
Proof. unfold te_A, rfield, kA. veq; ring. Qed.
Lemma te_H_radial s p : te_H s p = xfield (kH (te_current s) (te_length s) (td_theta (te_med s))) (te_orient s) (vsub p (te_loc s)).
Proof. unfold te_H, xfield, kH. set (q := vsub p (te_loc s)). set (r := vnorm q). clearbody q r.
  match goal with |- vscal (?a * ?b) _ = _ => set (k := a); set (m := b) end. clearbody k m.
  unfold vdiv. veq; unfold Rdiv; ring. Qed.
Lemma te_dH_radial s p : te_dH s p = xfield (kD (te_current s) (te_length s) (td_time (te_med s)) (td_theta (te_med s))) (te_orient s) (vsub p (te_loc s)).
Proof. unfold te_dH, xfield, kD. set (q := vsub p (te_loc s)). set (r := vnorm q). clearbody q r.
  match goal with |- vscal (?a * ?b) _ = _ => set (k := a); set (m := b) end. clearbody k m.
  unfold vdiv. veq; unfold Rdiv; ring. Qed.
Lemma te_E_radial s p : te_E s p = rfield (kE0 (te_current s) (te_length s) (td_sigma (te_med s)) (td_theta (te_med s)))
   (kE1 (te_current s) (te_length s) (td_sigma (te_med s)) (td_theta (te_med s))) (te_orient s) (vsub p (te_loc s)).
Proof.
  unfold te_E, rfield, kE0, kE1. set (q := vsub p (te_loc s)). set (r := vnorm q). clearbody q r.
  set (e := erf (td_theta (te_med s) * r)). set (x := exp (- (td_theta (te_med s) * r) ^ 2)).
  set (k := te_current s * te_length s / (4 * PI * td_sigma (te_med s) * r ^ 3)). set (th := td_theta (te_med s)). clearbody e x k th.
  set (w := sqrt PI). clearbody w. unfold vdiv, vdot. veq; unfold Rdiv; ring.
Qed.

Definition te_ok (s : tedip) : Prop := 0 < td_time (te_med s) /\ 0 < td_sigma (te_med s) /\ 0 < td_mu (te_med s).

Lemma te_curl_A s p : p <> te_loc s -> is_curl (te_A s) p (te_H s p).
Proof.
  intro N. apply vsub_nz in N. pose proof (vnorm_pos _ N) as Hr.
  eapply is_curl_ext'; [intro q; symmetry; apply te_A_radial| |].
  2:{ apply (is_curl_shift (rfield _ _ _)). eapply (rfield_curl _ _ _ 0 _ _ N); [apply D_kA; exact Hr|apply D_const]. }
  rewrite te_H_radial. unfold xfield. set (q := vsub p (te_loc s)) in *. set (r := vnorm q) in *.
  set (h := kH _ _ _ r). replace (- (r * h) / r - 0) with (- h) by (field; lra). clearbody h. veq; ring.
Qed.

Lemma te_curl_H s p : 0 < td_sigma (te_med s) -> p <> te_loc s -> is_curl (te_H s) p (vscal (td_sigma (te_med s)) (te_E s p)).
Proof.
  intros Hs N. apply vsub_nz in N. pose proof (vnorm_pos _ N) as Hr.
  destruct (D_kH (te_current s) (te_length s) (td_sigma (te_med s)) Hs (td_theta (te_med s)) _ Hr) as [D E].
  eapply is_curl_ext'; [intro q; symmetry; apply te_H_radial| |].
  2:{ apply (is_curl_shift (xfield _ _)). apply (xfield_curl _ _ _ _ N D). }
  rewrite te_E_radial. unfold rfield. rewrite <- E. set (q := vsub p (te_loc s)) in *. set (r := vnorm q) in *.
  set (e0 := kE0 _ _ _ _ r). set (e1 := kE1 _ _ _ _ r). set (sg := td_sigma (te_med s)). clearbody e0 e1 sg.
  replace (- (- (r * (sg * e1)) / r)) with (sg * e1) by (field; lra). veq; ring.
Qed.

Lemma te_curl_E s p : te_ok s -> p <> te_loc s -> is_curl (te_E s) p (vopp (te_dB s p)).
Proof.
  intros [Ht [Hs Hm]] N. apply vsub_nz in N. pose proof (vnorm_pos _ N) as Hr.
  eapply is_curl_ext'; [intro q; symmetry; apply te_E_radial| |].
  2:{ apply (is_curl_shift (rfield _ _ _)). eapply (rfield_curl _ _ _ _ _ _ N); [apply D_kE0|apply D_kE1]; assumption. }
  unfold te_dB. rewrite te_dH_radial. unfold xfield. set (q := vsub p (te_loc s)) in *. set (r := vnorm q) in *.
  rewrite (faraday_scalar _ _ _ (td_mu (te_med s)) Hs (td_time (te_med s))); [|assumption|assumption|apply theta_sq; assumption].
  set (d := kD _ _ _ _ r). clearbody d. veq; ring.
Qed.

Lemma te_div_E s p : 0 < td_sigma (te_med s) -> p <> te_loc s -> is_div (te_E s) p 0.
Proof.
  intros Hs N. apply vsub_nz in N. pose proof (vnorm_pos _ N) as Hr.
  eapply is_div_ext'; [intro q; symmetry; apply te_E_radial| |].
  2:{ apply (is_div_shift (rfield _ _ _)). eapply (rfield_div _ _ _ _ _ _ N); [apply D_kE0|apply D_kE1]; assumption. }
  cbv beta. rewrite div_scalar by assumption. ring.
Qed.
Lemma te_div_H s p : 0 < td_sigma (te_med s) -> p <> te_loc s -> is_div (te_H s) p 0.
Proof.
  intros Hs N. apply vsub_nz in N. pose proof (vnorm_pos _ N) as Hr.
  destruct (D_kH (te_current s) (te_length s) (td_sigma (te_med s)) Hs (td_theta (te_med s)) _ Hr) as [D E].
  eapply is_div_ext'; [intro q; symmetry; apply te_H_radial|reflexivity|].
  apply (is_div_shift (xfield _ _)). apply (xfield_div _ _ _ _ N D).
Qed.

Lemma te_H_time s p : te_ok s -> p <> te_loc s -> is_vderive (fun t => te_H (te_at s t) p) (td_time (te_med s)) (te_dH s p).
Proof.
  intros [Ht [Hs Hm]] N. apply vsub_nz in N. pose proof (vnorm_pos _ N) as Hr.
  pose proof (D_kH_time (te_current s) (te_length s) _ _ Hs Hm _ _ Ht Hr) as D.
  rewrite te_dH_radial. unfold xfield.
  assert (X : forall (f : vec3 -> R), (forall k v, f (vscal k v) = k * f v) ->
     is_derive (fun t => f (te_H (te_at s t) p)) (td_time (te_med s))
       (f (vscal (kD (te_current s) (te_length s) (td_time (te_med s)) (td_theta (te_med s)) (vnorm (vsub p (te_loc s)))) (vcross (te_orient s) (vsub p (te_loc s)))))).
  { intros f L. apply D_ext with (f := fun t => kH (te_current s) (te_length s) (theta t (td_sigma (te_med s)) (td_mu (te_med s))) (vnorm (vsub p (te_loc s))) * f (vcross (te_orient s) (vsub p (te_loc s)))).
    - intro t. rewrite te_H_radial. unfold xfield. rewrite L. reflexivity.
    - rewrite L. eapply is_derive_eq; [der|]. unfold td_theta. ring. }
  split; [|split]; apply X; intros k v; reflexivity.
Qed.

Lemma te_B_time s p : te_ok s -> p <> te_loc s -> is_vderive (fun t => te_B (te_at s t) p) (td_time (te_med s)) (te_dB s p).
Proof.
  intros O N. destruct (te_H_time s p O N) as [A [B C]]. unfold te_dB, te_B.
  split; [|split]; cbn [vscal vx vy vz te_at te_med at_time td_mu]; apply D_scal; assumption.
Qed.
