(** C149: the field of a conducting or permeable sphere in floating point. *)
From Coq Require Import ZArith Reals Lra Lia Psatz List String.
From Flocq Require Import Core.
From Verif Require Import Vec3 Numpy Model_Static Model_Float Model_Float12 Model_Float15 Spec_Float Spec_Float7
  Proof_Spatial Proof_Sphere Proof_Float Proof_Float2 Proof_Float3 Proof_Float9 Proof_Float14 Proof_Float13 Proof_Float21 Proof_Float23 Proof_Float25 Proof_Float28.
Import ListNotations.
Open Scope R_scope.

(** C149: six units of roundoff off the surface, inside and outside, the total, primary and secondary field are within 1700 units of roundoff of
    |E0| (1 + R / d^2), [d] being the distance from the centre; the primary field is within four units of |E0| *)
Theorem C149_off_the_surface pow dot s p field : good_pow pow -> good_dot dot -> 0 < sp_c0 s -> 0 < sp_c1 s -> 0 < sp_radius s ->
  (sp_radius s * (1 + 6 * / 2 ^ 53) < vnorm (vsub p (sp_loc s)) \/ vnorm (vsub p (sp_loc s)) < sp_radius s * (1 - 6 * / 2 ^ 53)) ->
  In field ["total"; "primary"; "secondary"]%string ->
  exists E E', sphere_field s [p] field = Ok (One [E]) /\ fsphere_field pow dot s p field = One [E'] /\
    vnorm (vsub E' E) <= 1700 * / 2 ^ 53 * (vnorm (sp_F0 s) * (1 + sp_radius s / vnorm (vsub p (sp_loc s)) ^ 2)) /\
    (field = "primary"%string -> vnorm (vsub E' E) <= 4 * / 2 ^ 53 * vnorm (sp_F0 s)).
Proof.
  intros GP GD P0 P1 PR H I. fold u in H |- *. pose proof u_pos as U. pose proof (vnorm_nonneg (sp_F0 s)) as NN.
  assert (T : 0 <= sp_radius s / vnorm (vsub p (sp_loc s)) ^ 2) by (apply Rmult_le_pos; [lra|apply inv_nonneg, pow2_ge_0]).
  assert (UN : 0 <= u * vnorm (sp_F0 s)) by (apply Rmult_le_pos; lra). assert (UT : 0 <= u * vnorm (sp_F0 s) * (sp_radius s / vnorm (vsub p (sp_loc s)) ^ 2)) by (apply Rmult_le_pos; assumption).
  pose proof (sphere_field_modes s [p]) as (M1 & M2 & M3 & _). destruct I as [<-|[<-|[<-|[]]]].
  - rewrite M1. do 2 eexists. split; [reflexivity|]. split; [reflexivity|]. split; [|discriminate]. eapply Rle_trans; [apply (total_field_error pow dot GP GD s p P0 P1 PR H)|]. nra.
  - rewrite M2. do 2 eexists. split; [reflexivity|]. split; [reflexivity|]. pose proof (comp_le (sp_F0 s)) as (X & Y & Z).
    assert (B : vnorm (vsub (fsp_primary_field s) (sp_F0 s)) <= 2 * (2 * u * vnorm (sp_F0 s))) by (apply three; [lra| | |]; apply primary_comp; assumption).
    split; [nra|intros _; nra].
  - rewrite M3. do 2 eexists. split; [reflexivity|]. split; [reflexivity|]. split; [|discriminate]. apply (secondary_field_error pow dot GP GD s p P0 P1 PR H).
Qed.

(** FINDING: on the surface no such bound holds.  The station (1, 2^-28, 0) is outside the unit sphere, but its distance from the centre rounds
    to 1 and the field inside is returned: for a sphere at least twice as conductive as the background, in a unit field along x, the x component is
    too small by at least half the primary field *)
Theorem C149_surface_refuted pow dot c1 c0 : 0 < c0 -> 2 * c0 <= c1 ->
  let s := SP 1 c1 c0 (V3 1 0 0) (V3 0 0 0) in let p := V3 1 (/ 2 ^ 28) 0 in
  sp_radius s < vnorm (vsub p (sp_loc s)) /\
  exists E E', sphere_field s [p] "total" = Ok (One [E]) /\ fsphere_field pow dot s p "total" = One [E'] /\
    E' = fvscal (fl (fl (3 * c0) / fl (c1 + fl (2 * c0)))) (V3 1 0 0) /\ / 2 <= vx E - vx E'.
Proof.
  intros P0 P1 s p. destruct (surface_error pow dot c1 c0 P0 P1) as [A B]. split; [exact A|].
  pose proof (sphere_field_modes s [p]) as (M1 & _). rewrite M1. do 2 eexists. split; [reflexivity|]. split; [reflexivity|]. split; [|exact B].
  unfold fsp_total_field. cbn [s sp_loc sp_radius sp_c1 sp_c0 sp_F0]. cbv zeta. unfold p. rewrite surface_norm. unfold Rltb. destruct (Rlt_dec 1 1); [lra|reflexivity].
Qed.

(** correctly rounded libraries; a station on either side of a unit sphere *)
Example C149_witness : good_pow (fun x k => fl (x ^ k)) /\ good_dot (fun a b => fl (vdot a b)) /\
  let s := SP 1 2 1 (V3 1 0 0) (V3 0 0 0) in 0 < sp_c0 s /\ 0 < sp_c1 s /\ 0 < sp_radius s /\ 2 * sp_c0 s <= sp_c1 s /\
  sp_radius s * (1 + 6 * / 2 ^ 53) < vnorm (vsub (V3 2 0 0) (sp_loc s)) /\ vnorm (vsub (V3 (/ 2) 0 0) (sp_loc s)) < sp_radius s * (1 - 6 * / 2 ^ 53).
Proof.
  split; [|split].
  - intros x k. apply (near_within' 8 1); [lia|cbn; lra|apply near_fl].
  - intros a b. eapply Rle_trans; [apply fl_err|]. fold u. pose proof u_lt as U. unfold vdot.
    pose proof (Rabs_triang (vx a * vx b + vy a * vy b) (vz a * vz b)). pose proof (Rabs_triang (vx a * vx b) (vy a * vy b)).
    pose proof (Rabs_pos (vx a * vx b)). pose proof (Rabs_pos (vy a * vy b)). pose proof (Rabs_pos (vz a * vz b)). nra.
  - cbv zeta. cbn [sp_c0 sp_c1 sp_radius sp_loc sp_F0].
    replace (vnorm (vsub (V3 2 0 0) (V3 0 0 0))) with 2 by (symmetry; apply vnorm_unique; [lra|unfold vnorm2, vsub; cbn [vx vy vz]; ring]).
    replace (vnorm (vsub (V3 (/ 2) 0 0) (V3 0 0 0))) with (/ 2) by (symmetry; apply vnorm_unique; [lra|unfold vnorm2, vsub; cbn [vx vy vz]; field]). repeat split; lra.
Qed.
Print Assumptions C149_off_the_surface.
Print Assumptions C149_surface_refuted.
