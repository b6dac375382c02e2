(** Newton's shell theorem: integrals of 1/q and its derivatives over a sphere. *)
From Coq Require Import Reals Lra Psatz List.
From Coquelicot Require Import Coquelicot.
From Verif Require Import Vec3 Calculus Deriv Integral Spec_Flux Proof_Flux Spec_Ball.
Open Scope R_scope.

Ltac dok := repeat split; first [exact I | lra].


Definition qq (d s t : R) : R := sqrt (d ^ 2 + s ^ 2 - 2 * d * s * cos t).

Lemma qq_arg d s t : 0 < d -> 0 < s -> (d - s) ^ 2 <= d ^ 2 + s ^ 2 - 2 * d * s * cos t <= (d + s) ^ 2.
Proof. intros D S. pose proof (COS_bound t). assert (0 < d * s) by nra. split; nra. Qed.
Lemma qq_sq d s t : 0 < d -> 0 < s -> qq d s t ^ 2 = d ^ 2 + s ^ 2 - 2 * d * s * cos t.
Proof. intros D S. unfold qq. apply pow2_sqrt. pose proof (qq_arg d s t D S). pose proof (pow2_ge_0 (d - s)). lra. Qed.
Lemma qq_ge0 d s t : 0 <= qq d s t. Proof. apply sqrt_pos. Qed.
Lemma qq_range d s t : 0 < d -> 0 < s -> Rabs (d - s) <= qq d s t <= d + s.
Proof.
  intros D S. pose proof (qq_arg d s t D S) as [A B]. pose proof (qq_sq d s t D S) as E. pose proof (qq_ge0 d s t) as P.
  split; (apply Rsqr_incr_0_var; [unfold Rsqr|lra]).
  - rewrite <- Rabs_mult, Rabs_pos_eq by (apply (Rle_0_sqr (d - s))). replace (qq d s t * qq d s t) with (qq d s t ^ 2) by ring. rewrite E. lra.
  - replace (qq d s t * qq d s t) with (qq d s t ^ 2) by ring. rewrite E. lra.
Qed.
Lemma qq_pos d s t : 0 < d -> 0 < s -> 0 < t < PI -> 0 < qq d s t.
Proof.
  intros D S T. unfold qq. apply sqrt_lt_R0. assert (cos t < 1). { rewrite <- cos_0. apply cos_decreasing_1; lra. }
  assert (0 < d * s) by nra. pose proof (pow2_ge_0 (d - s)). nra.
Qed.
Lemma qq_0 d s : 0 < d -> 0 < s -> qq d s 0 = Rabs (d - s).
Proof. intros D S. unfold qq. rewrite cos_0. replace (d ^ 2 + s ^ 2 - 2 * d * s * 1) with ((d - s)²) by (unfold Rsqr; ring). apply sqrt_Rsqr_abs. Qed.
Lemma qq_PI d s : 0 < d -> 0 < s -> qq d s PI = d + s.
Proof. intros D S. unfold qq. rewrite cos_PI. replace (d ^ 2 + s ^ 2 - 2 * d * s * -1) with ((d + s)²) by (unfold Rsqr; ring). apply sqrt_Rsqr. lra. Qed.

(** the distance is continuously differentiable in the angle, also on the shell through the point *)
Lemma qq_smooth d s : 0 < d -> 0 < s -> exists q g : R -> R,
  (forall t, 0 <= t <= PI -> is_derive q t (g t) /\ continuous g t) /\
  (forall t, 0 <= t <= PI -> q t = qq d s t) /\ (forall t, 0 < t < PI -> g t = d * s * sin t / qq d s t).
Proof.
  intros D S. destruct (Req_dec d s) as [<-|N].
  - exists (fun t => 2 * d * sin (t / 2)), (fun t => d * cos (t / 2)). split; [|split].
    + intros t _. split; [|apply (ex_derive_continuous (fun t => d * cos (t / 2))); eexists; der; dok].
      eapply is_derive_eq; [der; dok|field].
    + intros t T. assert (P : 0 <= sin (t / 2)) by (apply sin_ge_0; lra). unfold qq.
      replace (d ^ 2 + d ^ 2 - 2 * d * d * cos t) with ((2 * d * sin (t / 2))²); [rewrite sqrt_Rsqr; [reflexivity|nra]|].
      replace (cos t) with (cos (2 * (t / 2))) by (f_equal; field). rewrite cos_2a_sin. unfold Rsqr. ring.
    + intros t T. assert (P : 0 < sin (t / 2)) by (apply sin_gt_0; lra). assert (Q : qq d d t = 2 * d * sin (t / 2)).
      { unfold qq. replace (d ^ 2 + d ^ 2 - 2 * d * d * cos t) with ((2 * d * sin (t / 2))²); [rewrite sqrt_Rsqr; [reflexivity|nra]|].
        replace (cos t) with (cos (2 * (t / 2))) by (f_equal; field). rewrite cos_2a_sin. unfold Rsqr. ring. }
      rewrite Q. replace (sin t) with (sin (2 * (t / 2))) by (f_equal; field). rewrite sin_2a. field. lra.
  - assert (A : forall t, 0 < d ^ 2 + s ^ 2 - 2 * d * s * cos t).
    { intros t. pose proof (qq_arg d s t D S) as [L _]. assert (d - s <> 0) by lra. pose proof (pow2_gt_0 (d - s) H). lra. }
    assert (Q : forall t, 0 < qq d s t) by (intros; apply sqrt_lt_R0, A).
    exists (qq d s), (fun t => d * s * sin t / qq d s t). split; [|split; [reflexivity|reflexivity]].
    intros t _. split.
    + specialize (A t). specialize (Q t). unfold qq in *. eapply is_derive_eq; [der; exact A|]. field. lra.
    + apply (ex_derive_continuous (fun t => d * s * sin t / qq d s t)). specialize (A t). specialize (Q t). unfold qq in *. eexists. der; first [exact A|lra].
Qed.

(** integrals over the polar angle of functions of the distance *)
Lemma shell_int d s (P P' : R -> R) : 0 < d -> 0 < s ->
  (forall x, Rabs (d - s) <= x <= d + s -> is_derive P x (P' x) /\ continuous P' x) ->
  is_RInt (fun t => P' (qq d s t) * sin t / qq d s t) 0 PI ((P (d + s) - P (Rabs (d - s))) / (d * s)).
Proof.
  intros D S H. destruct (qq_smooth d s D S) as (q & g & A & B & E). pose proof PI_RGT_0 as PP. assert (0 < d * s) by nra.
  assert (K : is_RInt (fun t => P' (q t) * g t) 0 PI (P (q PI) - P (q 0))).
  { apply (FTC (fun t => P (q t)) (fun t => P' (q t) * g t)); [lra| |]; intros t T; destruct (A t T) as [Dq Cg]; assert (RQ : Rabs (d - s) <= q t <= d + s) by (rewrite B by exact T; apply qq_range; assumption);
      destruct (H _ RQ) as [DP CP].
    - eapply is_derive_eq; [exact (is_derive_comp P q t _ _ DP Dq)|]. cbn. ring.
    - apply (continuous_mult (fun t => P' (q t)) g); [|exact Cg]. apply (continuous_comp q P'); [|exact CP]. apply (ex_derive_continuous q). eexists. exact Dq. }
  rewrite !B, qq_0, qq_PI in K by (assumption || lra). apply (is_RInt_scal _ _ _ (/ (d * s))) in K.
  replace ((P (d + s) - P (Rabs (d - s))) / (d * s)) with (/ (d * s) * (P (d + s) - P (Rabs (d - s)))) by (field; nra).
  eapply is_RInt_ext; [|exact K]. intros t T. rewrite Rmin_left, Rmax_right in T by lra. cbn. rewrite B, E by lra.
  match goal with |- ?a = ?b => change (@eq R a b) end. unfold scal; cbn; unfold mult; cbn. pose proof (qq_pos d s t D S T). field. repeat split; nra.
Qed.

(** the integral over the azimuth *)
Lemma ring_int (u v w a b g : R) :
  is_RInt (fun f => u + v * cos f + w * sin f + a * cos f ^ 2 + b * sin f ^ 2 + g * (sin f * cos f)) 0 (2 * PI) (2 * PI * u + PI * (a + b)).
Proof.
  pose proof PI_RGT_0 as PP.
  set (F := fun f : R => u * f + v * sin f - w * cos f + a * (f / 2 + sin f * cos f / 2) + b * (f / 2 - sin f * cos f / 2) + g * (sin f ^ 2 / 2)).
  replace (2 * PI * u + PI * (a + b)) with (F (2 * PI) - F 0).
  - apply FTC; [lra| |].
    + intros f _. unfold F. eapply is_derive_eq; [der; dok|]. pose proof (sin2_cos2 f) as SC. unfold Rsqr in SC.
      change (INR 2) with (1 + 1); cbn [Init.Nat.pred pow].
      match goal with |- ?l = ?r => assert (E : l - r = (a + b) / 2 * (1 - (sin f * sin f + cos f * cos f))) by field end.
      rewrite SC in E. lra.
    + intros f _. apply (ex_derive_continuous (fun f => u + v * cos f + w * sin f + a * cos f ^ 2 + b * sin f ^ 2 + g * (sin f * cos f))). eexists. der; dok.
  - unfold F. rewrite sin_2PI, cos_2PI, sin_0, cos_0. field.
Qed.

Lemma shell_gen e1 e2 e3 c s (f : vec3 -> R) (u v w a b g : R -> R) I :
  (forall t p, 0 < t < PI -> f (vadd c (vscal s (direction e1 e2 e3 t p))) =
     u t + v t * cos p + w t * sin p + a t * cos p ^ 2 + b t * sin p ^ 2 + g t * (sin p * cos p)) ->
  is_RInt (fun t => (2 * PI * u t + PI * (a t + b t)) * (s ^ 2 * sin t)) 0 PI I -> sphere_integral e1 e2 e3 c s f I.
Proof.
  intros E K. exists (fun t => (2 * PI * u t + PI * (a t + b t)) * (s ^ 2 * sin t)). split; [|exact K]. intros t T.
  pose proof (is_RInt_scal _ _ _ (s ^ 2 * sin t) _ (ring_int (u t) (v t) (w t) (a t) (b t) (g t))) as Q.
  replace ((2 * PI * u t + PI * (a t + b t)) * (s ^ 2 * sin t)) with (scal (s ^ 2 * sin t) (2 * PI * u t + PI * (a t + b t))) by (cbn; ring).
  eapply is_RInt_ext; [|exact Q]. intros p _. cbn beta. rewrite E by exact T. cbn. ring.
Qed.

Lemma shell_ext e1 e2 e3 c s (f h : vec3 -> R) I : (forall y, f y = h y) -> sphere_integral e1 e2 e3 c s f I -> sphere_integral e1 e2 e3 c s h I.
Proof.
  intros E (r & A & B). exists r. split; [|exact B]. intros t T. eapply is_RInt_ext; [|exact (A t T)]. intros p _. cbn beta. rewrite E. reflexivity.
Qed.

Lemma shell_dist e1 e2 e3 c s d t p : frame e1 e2 e3 ->
  vnorm (vsub (along c d e3) (vadd c (vscal s (direction e1 e2 e3 t p)))) = qq d s t.
Proof.
  intros F. rewrite vnorm_sub_sym. unfold vnorm. rewrite rvec_norm2 by exact F. unfold q2, qq. f_equal. ring.
Qed.
Lemma shell_vec e1 e2 e3 c s d t p :
  vsub (along c d e3) (vadd c (vscal s (direction e1 e2 e3 t p))) =
  vsub (vscal (d - s * cos t) e3) (vadd (vscal (s * sin t * cos p) e1) (vscal (s * sin t * sin p) e2)).
Proof. unfold along, direction. destruct c, e1, e2, e3; vring. Qed.
