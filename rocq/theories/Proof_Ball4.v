(** The charges on a conducting sphere and the potential they make. *)
From Coq Require Import Reals Lra Psatz List String.
From Coquelicot Require Import Coquelicot.
From Verif Require Import Vec3 Numpy Calculus Deriv Integral Model_Static Proof_Sphere Spec_Flux Proof_Flux Proof_Flux2 Spec_Ball Proof_Ball Proof_Ball2 Proof_Ball3.
Import ListNotations.
Open Scope R_scope.

Lemma int_cos d s : 0 < d -> 0 < s -> is_RInt (fun t => cos t * sin t / qq d s t) 0 PI (2 / 3 * Rmin d s / Rmax d s ^ 2).
Proof.
  intros D S. set (A := d ^ 2 + s ^ 2). assert (DS : 0 < d * s) by nra.
  set (P := fun x : R => (A * x - x ^ 3 / 3) / (2 * d * s)). set (P' := fun x : R => (A - x ^ 2) / (2 * d * s)).
  assert (H : forall x, Rabs (d - s) <= x <= d + s -> is_derive P x (P' x) /\ continuous P' x).
  { intros x X. assert (2 * d * s <> 0) by nra. split.
    - unfold P, P'. eapply is_derive_eq; [der; repeat split; lra|]. cbn [INR pow Init.Nat.pred]. field. lra.
    - apply (ex_derive_continuous P'). unfold P'. eexists. der; repeat split; lra. }
  pose proof (shell_int d s P P' D S H) as K.
  match type of K with is_RInt _ _ _ ?v => replace (2 / 3 * Rmin d s / Rmax d s ^ 2) with v end.
  - eapply is_RInt_ext; [|exact K]. intros t T. rewrite Rmin_left, Rmax_right in T by (pose proof PI_RGT_0; lra). cbn beta; req. pose proof (qq_pos d s t D S T) as Q.
    assert (E : cos t = (A - qq d s t ^ 2) / (2 * d * s)) by (rewrite qq_sq by assumption; unfold A; field; lra). unfold P'. rewrite E. reflexivity.
  - unfold P, A, Rmax, Rmin, Rabs. destruct (Rle_dec d s), (Rcase_abs (d - s)); try lra; try (field; lra). assert (d = s) by lra. subst. field. lra.
Qed.

Lemma int_cos0 : is_RInt (fun t => cos t * sin t) 0 PI 0.
Proof.
  replace 0 with (sin PI ^ 2 / 2 - sin 0 ^ 2 / 2) at 2 by (rewrite sin_PI, sin_0; field). apply (FTC (fun t => sin t ^ 2 / 2)); [pose proof PI_RGT_0; lra| |].
  - intros t _. eapply is_derive_eq; [der; dok|]. change (INR 2) with (1 + 1). cbn [Init.Nat.pred pow]. field.
  - intros t _. apply (ex_derive_continuous (fun t => cos t * sin t)). eexists. der; dok.
Qed.

Lemma charge_surface eps0 s dr y : 0 < sp_radius s -> (forall w, dr = Some w -> 0 < w) -> vnorm (vsub y (sp_loc s)) = sp_radius s ->
  charge_density eps0 s [y] dr = Ok [eps0 * 3 * vdot (vsub y (sp_loc s)) (sp_F0 s) * sp_cur s / sp_radius s].
Proof.
  intros R0 W E. unfold charge_density. cbn [map]. rewrite E.
  set (w := match dr with None => _ | Some d => d end). assert (0 < w) by (unfold w; destruct dr as [w'|]; [apply W; reflexivity|lra]).
  unfold Rltb. destruct (Rlt_dec (sp_radius s) (sp_radius s + 1 / 2 * w)); [|lra]. destruct (Rlt_dec (sp_radius s - 1 / 2 * w) (sp_radius s)); [|lra].
  cbn. rewrite E. reflexivity.
Qed.

Lemma charge_potential eps0 s dr sig e1 e2 e3 d v : 0 < eps0 -> 0 < sp_radius s -> sp_c1 s + 2 * sp_c0 s <> 0 -> frame e1 e2 e3 -> 0 <= d ->
  (forall w, dr = Some w -> 0 < w) ->
  (forall y, vnorm (vsub y (sp_loc s)) = sp_radius s -> charge_density eps0 s [y] dr = Ok [sig y]) ->
  let p := along (sp_loc s) d e3 in
  sphere_potential s [p] "secondary" = Ok (One [v]) ->
  sphere_integral e1 e2 e3 (sp_loc s) (sp_radius s) (fun y => sig y / (4 * PI * eps0 * vnorm (vsub p y))) v.
Proof.
  intros E0 R0 NZ F D W CD p V. pose proof PI_RGT_0 as PP. set (rd := sp_radius s) in *. set (c := sp_loc s) in *.
  set (k := 3 * sp_cur s / (4 * PI)).
  assert (EV : v = sp_cur s * rd ^ 2 * vdot e3 (sp_F0 s) * (Rmin d rd / Rmax d rd ^ 2)).
  { pose proof (sphere_potential_modes s [p]) as (_ & _ & M & _). rewrite M in V. cbn in V. injection V as <-.
    unfold sp_V, sp_prim. change (sp_loc s) with c. change (sp_radius s) with rd.
    pose proof (axis_norm e1 e2 e3 c d F D) as AN. assert (AV : vsub p c = vscal d e3) by (unfold p, along; destruct c, e3; vring). fold p in AN. rewrite AN, AV.
    assert (Dt : vdot (vscal d e3) (vopp (sp_F0 s)) = - d * vdot e3 (sp_F0 s)) by (destruct e3, (sp_F0 s); vunf; ring). rewrite Dt. unfold Rltb.
    destruct (Rlt_dec rd d) as [L|L].
    - rewrite Rmin_right, Rmax_left by lra. field. lra.
    - rewrite Rmin_left, Rmax_right by lra. unfold sp_cur. field. lra. }
  rewrite EV.
  assert (SG : forall t f, sig (vadd c (vscal rd (direction e1 e2 e3 t f))) = 3 * eps0 * sp_cur s * (sin t * cos f * vdot e1 (sp_F0 s) + sin t * sin f * vdot e2 (sp_F0 s) + cos t * vdot e3 (sp_F0 s))).
  { intros t f. set (n := direction e1 e2 e3 t f). assert (SV : vsub (vadd c (vscal rd n)) c = vscal rd n) by (destruct c, n; vring).
    assert (SN : vnorm (vsub (vadd c (vscal rd n)) c) = rd).
    { rewrite SV, vnorm_scal, Rabs_pos_eq by lra. unfold n. rewrite dir_unit by exact F. ring. }
    pose proof (CD _ SN) as C1. pose proof (charge_surface eps0 s dr _ R0 W SN) as C2. rewrite C1 in C2. injection C2 as ->. fold c. rewrite SV.
    rewrite <- dir_dot. fold n. fold rd. replace (vdot (vscal rd n) (sp_F0 s)) with (rd * vdot n (sp_F0 s)) by (destruct n, (sp_F0 s); vunf; ring). field. lra. }
  assert (QP : forall t, 0 < t < PI -> 0 < qq d rd t) by (intros t T; destruct D as [D|<-]; [apply qq_pos; assumption|rewrite qq_zero by exact R0; exact R0]).
  eapply (shell_gen e1 e2 e3 c rd _ (fun t => k * cos t * vdot e3 (sp_F0 s) / qq d rd t) (fun t => k * sin t * vdot e1 (sp_F0 s) / qq d rd t)
    (fun t => k * sin t * vdot e2 (sp_F0 s) / qq d rd t) (fun _ => 0) (fun _ => 0) (fun _ => 0)).
  - intros t f T. rewrite SG. unfold p. rewrite shell_dist by exact F. specialize (QP t T). unfold k. field. repeat split; lra.
  - destruct D as [D|<-].
    + match goal with |- is_RInt _ _ _ ?g => replace g with (scal (2 * PI * k * vdot e3 (sp_F0 s) * rd ^ 2) (2 / 3 * Rmin d rd / Rmax d rd ^ 2)) end.
      * eapply is_RInt_ext; [|exact (is_RInt_scal _ _ _ _ _ (int_cos d rd D R0))]. intros t T. cbn; req. unfold Rdiv. ring.
      * assert (Rmax d rd <> 0) by (pose proof (Rmax_l d rd); lra). match goal with |- scal ?a ?b = ?r => change (a * b = r) end. unfold k. field. repeat split; lra.
    + match goal with |- is_RInt _ _ _ ?g => replace g with (scal (2 * PI * k * vdot e3 (sp_F0 s) * rd) 0) end.
      * eapply is_RInt_ext; [|exact (is_RInt_scal _ _ _ _ _ int_cos0)]. intros t T. cbn beta. rewrite qq_zero by exact R0. cbn; req. field. lra.
      * rewrite Rmin_left, Rmax_right by lra. match goal with |- scal ?a ?b = ?r => change (a * b = r) end. field. lra.
Qed.
