(** The ball: integration over the radius. *)
From Coq Require Import Reals Lra Psatz List.
From Coquelicot Require Import Coquelicot.
From Verif Require Import Vec3 Numpy Calculus Deriv Integral Model_Gravity Proof_Gravity Spec_Flux Proof_Flux Proof_Power Spec_Ball Proof_Ball Proof_Ball2.
Import ListNotations.
Open Scope R_scope.

Lemma int_pow (k : R) n a b : a <= b -> is_RInt (fun s => k * s ^ n) a b (k * (b ^ S n - a ^ S n) / INR (S n)).
Proof.
  intros L. assert (N : INR (S n) <> 0) by (apply not_0_INR; discriminate).
  replace (k * (b ^ S n - a ^ S n) / INR (S n)) with (k * b ^ S n / INR (S n) - k * a ^ S n / INR (S n)) by (field; exact N).
  apply (FTC (fun s => k * s ^ S n / INR (S n)) (fun s => k * s ^ n)); [exact L| |].
  - intros x _. eapply is_derive_eq; [der; exact N|]. cbn [Init.Nat.pred]. field. exact N.
  - intros x _. apply (ex_derive_continuous (fun s => k * s ^ n)). eexists. der.
Qed.

(** 4 pi s^2 / max(d, s) *)
Lemma radial_potential k d rad : 0 <= d -> 0 < rad ->
  is_RInt (fun s => k * s ^ 2 / Rmax d s) 0 rad (if Rlt_dec rad d then k * rad ^ 3 / (3 * d) else k * (rad ^ 2 / 2 - d ^ 2 / 6)).
Proof.
  intros D R0. destruct (Rlt_dec rad d) as [L|L].
  - replace (k * rad ^ 3 / (3 * d)) with (k / d * (rad ^ 3 - 0 ^ 3) / INR 3) by (cbn; field; lra).
    eapply is_RInt_ext; [|apply (int_pow (k / d) 2); lra]. intros s Hs. rewrite Rmin_left, Rmax_right in Hs by lra. rewrite Rmax_left by lra. cbn beta; req. field. lra.
  - replace (k * (rad ^ 2 / 2 - d ^ 2 / 6)) with (@plus R_NormedModule (k * d ^ 2 / 3) (k * (rad ^ 2 - d ^ 2) / INR 2)) by (cbn; field).
    apply (is_RInt_Chasles (V := R_NormedModule) _ 0 d rad).
    + destruct D as [D|<-].
      * replace (k * d ^ 2 / 3) with (k / d * (d ^ 3 - 0 ^ 3) / INR 3) by (cbn; field; lra).
        eapply is_RInt_ext; [|apply (int_pow (k / d) 2); lra]. intros s Hs. rewrite Rmin_left, Rmax_right in Hs by lra. rewrite Rmax_left by lra. cbn beta; req. field. lra.
      * replace (k * 0 ^ 2 / 3) with (zero : R_NormedModule) by (cbn; field). exact (is_RInt_point _ 0).
    + eapply is_RInt_ext; [|apply (int_pow k 1); lra]. intros s Hs. rewrite Rmin_left, Rmax_right in Hs by lra. rewrite Rmax_right by lra. cbn beta; req. field. lra.
Qed.
Lemma radial_field k d rad : 0 <= d -> 0 < rad ->
  is_RInt (fun s => k * s ^ 2 * hstep d s) 0 rad (if Rlt_dec rad d then k * (2 * rad ^ 3 / (3 * d ^ 2)) else k * (2 * d / 3)).
Proof.
  intros D R0. destruct (Rlt_dec rad d) as [L|L].
  - replace (k * (2 * rad ^ 3 / (3 * d ^ 2))) with (k * 2 / d ^ 2 * (rad ^ 3 - 0 ^ 3) / INR 3) by (cbn; field; lra).
    eapply is_RInt_ext; [|apply (int_pow (k * 2 / d ^ 2) 2); lra]. intros s Hs. rewrite Rmin_left, Rmax_right in Hs by lra.
    unfold hstep, half_step. destruct (Req_EM_T d 0); [lra|]. destruct (Rlt_dec s d); [|lra]. cbn beta; req. field. lra.
  - replace (k * (2 * d / 3)) with (@plus R_NormedModule (k * (2 * d / 3)) ((rad - d) * 0)) by (cbn; ring).
    apply (is_RInt_Chasles (V := R_NormedModule) _ 0 d rad).
    + destruct D as [D|<-].
      * replace (k * (2 * d / 3)) with (k * 2 / d ^ 2 * (d ^ 3 - 0 ^ 3) / INR 3) by (cbn; field; lra).
        eapply is_RInt_ext; [|apply (int_pow (k * 2 / d ^ 2) 2); lra]. intros s Hs. rewrite Rmin_left, Rmax_right in Hs by lra.
        unfold hstep, half_step. destruct (Req_EM_T d 0); [lra|]. destruct (Rlt_dec s d); [|lra]. cbn beta; req. field. lra.
      * replace (k * (2 * 0 / 3)) with (zero : R_NormedModule) by (cbn; field). exact (is_RInt_point _ 0).
    + eapply is_RInt_ext; [|apply (const_integral d rad 0)]. intros s Hs. rewrite Rmin_left, Rmax_right in Hs by lra.
      unfold hstep, half_step. destruct (Req_EM_T d 0); [cbn; ring|]. destruct (Rlt_dec s d); [lra|]. destruct (Rlt_dec d s); [cbn; ring|lra].
Qed.

Section Ball.
  Variables (e1 e2 e3 c : vec3) (rho rad d : R).
  Hypothesis F : frame e1 e2 e3.
  Hypothesis R0 : 0 < rad.
  Hypothesis D : 0 <= d.
  Let p := along c d e3.

  Lemma axis_vec : vsub p c = vscal d e3.
  Proof. unfold p, along. destruct c, e3; vring. Qed.
  Lemma axis_norm : vnorm (vsub p c) = d.
  Proof. rewrite axis_vec, vnorm_scal, Rabs_pos_eq by exact D. replace (vnorm e3) with 1; [ring|]. symmetry. apply vnorm_unique; [lra|]. rewrite vnorm2_dot. symmetry. rewrite (proj1 (proj2 (proj2 F))). ring. Qed.

  Lemma ball_potential : ball_integral e1 e2 e3 c rad (fun y => pm_potential (PM rho y) p) (gs_potential_pt (GS rad rho c) p).
  Proof.
    exists (fun s => 4 * PI * G_newton * rho * s ^ 2 / Rmax d s). split; [intros s S; apply shell_potential; [exact F|exact D|lra]|].
    pose proof (radial_potential (4 * PI * G_newton * rho) d rad D R0) as K. match type of K with is_RInt _ _ _ ?v => replace (gs_potential_pt (GS rad rho c) p) with v end; [exact K|].
    unfold gs_potential_pt, pm_potential, gs_as_point_mass, gs_mass. cbn [gs_radius gs_rho gs_loc pm_mass pm_loc]. rewrite axis_norm. unfold Rltb.
    destruct (Rlt_dec rad d); req; field; lra.
  Qed.
  Lemma ball_field_comp pr : comp pr -> ball_integral e1 e2 e3 c rad (fun y => pr (pm_field (PM rho y) p)) (pr (gs_field_pt (GS rad rho c) p)).
  Proof.
    intros Pr. exists (fun s => - 2 * PI * G_newton * rho * s ^ 2 * hstep d s * pr e3). split; [intros s S; apply shell_field; [exact F|exact Pr|exact D|lra]|].
    pose proof (radial_field (- 2 * PI * G_newton * rho * pr e3) d rad D R0) as K.
    match type of K with is_RInt _ _ _ ?v => replace (pr (gs_field_pt (GS rad rho c) p)) with v end.
    - eapply is_RInt_ext; [|exact K]. intros s _. cbn beta; req. ring.
    - unfold gs_field_pt. cbn [gs_radius gs_rho gs_loc]. rewrite axis_norm. unfold Rltb. destruct (Rlt_dec rad d).
      + rewrite field_comp by exact Pr. unfold gs_as_point_mass, gs_mass. cbn [gs_radius gs_rho gs_loc pm_mass pm_loc]. rewrite axis_norm, axis_vec.
        replace (pr (vscal d e3)) with (d * pr e3) by (destruct Pr as [->|[->| ->]]; reflexivity). req. field. lra.
      + rewrite axis_vec. replace (pr (vscal (- G_newton * 4 / 3 * PI * rho) (vscal d e3))) with (- G_newton * 4 / 3 * PI * rho * (d * pr e3)) by (destruct Pr as [->|[->| ->]]; reflexivity). req. field.
  Qed.
  Lemma ball_field : ball_vintegral e1 e2 e3 c rad (fun y => pm_field (PM rho y) p) (gs_field_pt (GS rad rho c) p).
  Proof. split; [|split]; apply ball_field_comp; unfold comp; auto. Qed.

  Lemma ball_entry pr qr dl : comp pr -> comp qr -> pr e1 * qr e1 + pr e2 * qr e2 + pr e3 * qr e3 = dl -> rad < d ->
    ball_integral e1 e2 e3 c rad (fun y => entry pr qr dl (PM rho y) p) (entry pr qr dl (gs_as_point_mass (GS rad rho c)) p).
  Proof.
    intros Pr Qr De L. exists (fun s => - 4 * PI * G_newton * rho * s ^ 2 * (dl - 3 * pr e3 * qr e3) / d ^ 3).
    split; [intros s S; apply shell_entry; try assumption; lra|].
    pose proof (int_pow (- 4 * PI * G_newton * rho * (dl - 3 * pr e3 * qr e3) / d ^ 3) 2 0 rad (Rlt_le _ _ R0)) as K.
    match type of K with is_RInt _ _ _ ?v => replace (entry pr qr dl (gs_as_point_mass (GS rad rho c)) p) with v end.
    - eapply is_RInt_ext; [|exact K]. intros s _. cbn beta; req. field. lra.
    - unfold entry, gs_as_point_mass, gs_mass. cbn [gs_radius gs_rho gs_loc pm_mass pm_loc]. rewrite axis_norm, axis_vec.
      assert (E : forall h, comp h -> h (vscal d e3) = d * h e3) by (intros h [->|[->| ->]]; reflexivity). rewrite !E by assumption. cbn [INR]. req. field. lra.
  Qed.
  Lemma frame_delta : vx e1 * vx e1 + vx e2 * vx e2 + vx e3 * vx e3 = 1 /\ vy e1 * vy e1 + vy e2 * vy e2 + vy e3 * vy e3 = 1 /\
    vz e1 * vz e1 + vz e2 * vz e2 + vz e3 * vz e3 = 1 /\ vx e1 * vy e1 + vx e2 * vy e2 + vx e3 * vy e3 = 0 /\
    vx e1 * vz e1 + vx e2 * vz e2 + vx e3 * vz e3 = 0 /\ vy e1 * vz e1 + vy e2 * vz e2 + vy e3 * vz e3 = 0.
  Proof.
    pose proof (fun v w => frame_polar e1 e2 e3 v w F) as P.
    pose proof (P (V3 1 0 0) (V3 1 0 0)). pose proof (P (V3 0 1 0) (V3 0 1 0)). pose proof (P (V3 0 0 1) (V3 0 0 1)).
    pose proof (P (V3 1 0 0) (V3 0 1 0)). pose proof (P (V3 1 0 0) (V3 0 0 1)). pose proof (P (V3 0 1 0) (V3 0 0 1)).
    unfold vdot in *. cbn [vx vy vz] in *. repeat split; nra.
  Qed.
  Lemma ball_gradient : rad < d -> ball_mintegral e1 e2 e3 c rad (fun y => pm_gradient (PM rho y) p) (pm_gradient (gs_as_point_mass (GS rad rho c)) p).
  Proof.
    intros L. destruct frame_delta as (A & B & C & X & Y & Z).
    assert (CX : comp vx) by (unfold comp; auto). assert (CY : comp vy) by (unfold comp; auto). assert (CZ : comp vz) by (unfold comp; auto).
    assert (X' : vy e1 * vx e1 + vy e2 * vx e2 + vy e3 * vx e3 = 0) by lra. assert (Y' : vz e1 * vx e1 + vz e2 * vx e2 + vz e3 * vx e3 = 0) by lra.
    assert (Z' : vz e1 * vy e1 + vz e2 * vy e2 + vz e3 * vy e3 = 0) by lra.
    split; [|split]; (split; [|split]).
    - exact (ball_entry vx vx 1 CX CX A L).
    - exact (ball_entry vx vy 0 CX CY X L).
    - exact (ball_entry vx vz 0 CX CZ Y L).
    - exact (ball_entry vy vx 0 CY CX X' L).
    - exact (ball_entry vy vy 1 CY CY B L).
    - exact (ball_entry vy vz 0 CY CZ Z L).
    - exact (ball_entry vz vx 0 CZ CX Y' L).
    - exact (ball_entry vz vy 0 CZ CY Z' L).
    - exact (ball_entry vz vz 1 CZ CZ C L).
  Qed.
End Ball.

(** every point lies on the polar axis of some frame *)
Lemma unit_frame u : vdot u u = 1 -> exists e1 e2, frame e1 e2 u.
Proof.
  intros U. destruct u as [a b g]. unfold vdot in U. cbn [vx vy vz] in U.
  destruct (Req_dec (a ^ 2 + b ^ 2) 0) as [Z|N].
  - assert (a = 0) by nra. assert (b = 0) by nra. subst. exists (V3 1 0 0), (V3 0 1 0). unfold frame, vdot. cbn. repeat split; lra.
  - assert (P : 0 < a ^ 2 + b ^ 2) by nra. set (h := sqrt (a ^ 2 + b ^ 2)). assert (H : 0 < h) by (apply sqrt_lt_R0; exact P).
    assert (E : h ^ 2 = a ^ 2 + b ^ 2) by (apply pow2_sqrt; lra).
    exists (V3 (- b / h) (a / h) 0), (V3 (- a * g / h) (- b * g / h) h). unfold frame, vdot. cbn [vx vy vz].
    assert (E1 : - b / h * (- b / h) + a / h * (a / h) + 0 * 0 = (a ^ 2 + b ^ 2) / h ^ 2) by (field; lra).
    assert (E2 : - a * g / h * (- a * g / h) + - b * g / h * (- b * g / h) + h * h = (a ^ 2 + b ^ 2) / h ^ 2 * g ^ 2 + h ^ 2) by (field; lra).
    assert (E4 : - a * g / h * a + - b * g / h * b + h * g = (- (a ^ 2 + b ^ 2) / h ^ 2 + 1) * h * g) by (field; lra).
    assert (Q : (a ^ 2 + b ^ 2) / h ^ 2 = 1) by (rewrite E; field; lra).
    assert (Q' : - (a ^ 2 + b ^ 2) / h ^ 2 = - 1) by (unfold Rdiv in *; lra).
    rewrite E1, E2, E4, Q, Q'. rewrite E. repeat split; try (field; lra); try lra; nra.
Qed.
Lemma polar_axis c p : exists e1 e2 e3 d, frame e1 e2 e3 /\ 0 <= d /\ p = along c d e3.
Proof.
  destruct (Req_dec (vnorm (vsub p c)) 0) as [Z|N].
  - exists (V3 1 0 0), (V3 0 1 0), (V3 0 0 1), 0. split; [unfold frame, vdot; cbn; repeat split; lra|]. split; [lra|].
    apply vnorm_eq0 in Z. unfold along. destruct p as [px py pz], c as [cx cy cz]. unfold vsub, vzero in Z. cbn in Z. injection Z as Z1 Z2 Z3. vunf. f_equal; lra.
  - set (d := vnorm (vsub p c)) in *. assert (0 <= d) by apply vnorm_nonneg. set (u := vscal (/ d) (vsub p c)).
    assert (U : vdot u u = 1).
    { assert (E : vdot u u = vnorm2 (vsub p c) / (d * d)) by (unfold u; destruct p, c; vunf; field; exact N). rewrite E, <- vnorm_sqr. fold d. field. exact N. }
    destruct (unit_frame u U) as (e1 & e2 & Fr). exists e1, e2, u, d. split; [exact Fr|]. split; [assumption|].
    unfold along, u. destruct p as [px py pz], c as [cx cy cz]. vunf. f_equal; field; exact N.
Qed.
