(** C146: the potential of a conducting or permeable sphere in floating point. *)
From Coq Require Import ZArith Reals Lra Lia Psatz List String.
From Flocq Require Import Core.
From Verif Require Import Vec3 Numpy Model_Static Model_Float Model_Float12 Spec_Float Spec_Float7
  Proof_Spatial Proof_Sphere Proof_Float Proof_Float2 Proof_Float3 Proof_Float9 Proof_Float14 Proof_Float13 Proof_Float21 Proof_Float25.
Import ListNotations.
Open Scope R_scope.

(** C146: at every station, inside, outside and where rounding moves it to the other side of the surface, the error of the total, primary and
    secondary potential is at most 290 units of roundoff of |p - location| |E0| *)
Theorem C146_every_station pow dot s p field : good_pow pow -> good_dot dot -> 0 < sp_c0 s -> 0 < sp_c1 s -> 0 < sp_radius s ->
  In field ["total"; "primary"; "secondary"]%string ->
  exists V V', sphere_potential s [p] field = Ok (One [V]) /\ fsphere_potential pow dot s p field = One [V'] /\
    Rabs (V' - V) <= 290 * / 2 ^ 53 * (vnorm (vsub p (sp_loc s)) * vnorm (sp_F0 s)).
Proof.
  intros GP GD P0 P1 PR I. fold u. pose proof u_pos as U. pose proof (N_nonneg s p) as NN. assert (UN : 0 <= u * (vnorm (vsub p (sp_loc s)) * vnorm (sp_F0 s))) by (apply Rmult_le_pos; lra).
  pose proof (sphere_potential_modes s [p]) as (T & P & S & _). destruct I as [<-|[<-|[<-|[]]]].
  - rewrite T. do 2 eexists. split; [reflexivity|]. split; [reflexivity|]. eapply Rle_trans; [apply (total_error pow dot GP GD s p P0 P1 PR)|]. lra.
  - rewrite P. do 2 eexists. split; [reflexivity|]. split; [reflexivity|]. eapply Rle_trans; [apply (primary_error dot GD s p)|]. lra.
  - rewrite S. do 2 eexists. split; [reflexivity|]. split; [reflexivity|]. apply (secondary_error pow dot GP GD s p P0 P1 PR).
Qed.

(** FINDING: from 2^19 radii on the secondary potential is returned as exactly zero although it is not, because it is computed as the difference
    of the total and the primary potential, which round to the same number: its relative error is 1 *)
Theorem C146_far_secondary_refuted pow dot s p : good_pow pow -> (forall a b, float (dot a b)) -> 0 < sp_c0 s -> 0 < sp_c1 s -> 0 < sp_radius s ->
  sp_c1 s <> sp_c0 s -> vdot (vsub p (sp_loc s)) (sp_F0 s) <> 0 -> 2 ^ 19 * sp_radius s <= vnorm (vsub p (sp_loc s)) ->
  exists V, sphere_potential s [p] "secondary" = Ok (One [V]) /\ V <> 0 /\ fsphere_potential pow dot s p "secondary" = One [0].
Proof.
  intros GP FD P0 P1 PR NE DN F. pose proof (sphere_potential_modes s [p]) as (_ & _ & S & _). rewrite S. eexists. split; [reflexivity|]. split.
  - apply (far_real s p P0 P1 PR NE); [|nra]. intros Z. apply DN. rewrite <- (Ropp_involutive (vdot _ (sp_F0 s))). replace (- vdot (vsub p (sp_loc s)) (sp_F0 s)) with (vdot (vsub p (sp_loc s)) (vopp (sp_F0 s))); [rewrite Z; ring|]. unfold vdot, vopp. cbn [vx vy vz]. ring.
  - unfold fsphere_potential, dispatch. cbn. rewrite (far_total pow dot GP s p P0 P1 PR FD F), Rminus_eq_0, fl0. reflexivity.
Qed.

(** correctly rounded libraries; a conductive sphere of radius 1 in a field along x, a station at 2^20 radii *)
Example C146_witness : good_pow (fun x k => fl (x ^ k)) /\ good_dot (fun a b => fl (vdot a b)) /\ (forall a b, float ((fun a b => fl (vdot a b)) a b)) /\
  let s := SP 1 2 1 (V3 1 0 0) (V3 0 0 0) in let p := V3 (2 ^ 20) 0 0 in
  0 < sp_c0 s /\ 0 < sp_c1 s /\ 0 < sp_radius s /\ sp_c1 s <> sp_c0 s /\ vdot (vsub p (sp_loc s)) (sp_F0 s) <> 0 /\ 2 ^ 19 * sp_radius s <= vnorm (vsub p (sp_loc s)).
Proof.
  split; [|split; [|split]].
  - intros x k. apply (near_within' 8 1); [lia|cbn; lra|apply near_fl].
  - intros a b. eapply Rle_trans; [apply fl_err|]. fold u. pose proof u_lt as U. unfold vdot.
    pose proof (Rabs_triang (vx a * vx b + vy a * vy b) (vz a * vz b)). pose proof (Rabs_triang (vx a * vx b) (vy a * vy b)).
    pose proof (Rabs_pos (vx a * vx b)). pose proof (Rabs_pos (vy a * vy b)). pose proof (Rabs_pos (vz a * vz b)). nra.
  - intros a b. apply fl_float.
  - cbv zeta. cbn [sp_c0 sp_c1 sp_radius sp_loc sp_F0]. unfold vdot, vsub. cbn [vx vy vz]. repeat split; try lra.
    replace (vnorm _) with (2 ^ 20); [lra|]. symmetry. apply vnorm_unique; [lra|]. unfold vnorm2. cbn [vx vy vz]. ring.
Qed.
Print Assumptions C146_every_station.
Print Assumptions C146_far_secondary_refuted.
