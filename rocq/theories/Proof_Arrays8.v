(** Array evaluation of loops, wires and spheres *)
From Coq Require Import String Reals List Arith Lia Lra Bool.
From Verif Require Import Vec3 Numpy Model_Utils Proof_Utils Model_Spatial Model_Static Model_Gravity Model_Prism Model_Batch Model_TDEM Model_Arrays Proof_Arrays Spec_Arrays Proof_Arrays2 Model_Arrays2 Spec_Arrays2 Proof_Arrays3 Proof_Arrays4 Model_Arrays3 Proof_Arrays7 Proof_Gravity Proof_Sphere Proof_Batch Spec_Arrays3.
Import ListNotations.
Open Scope nat_scope.

(** ** loops *)
Lemma cl_A_nd_points s rot S a v : rotation_matrix_v (cl_orient s) (V3 0 0 1) default_tol = Ok rot -> points_of S a v ->
  exists e, cl_A_nd s a = Ok e /\ points_of S e (fun j => frame_pt (fun rho z => V3 0 (cl_A_phi (cl_radius s) (cl_mu s * cl_current s / PI) rho z) 0) rot s (v j)).
Proof.
  intros Hr P. unfold cl_A_nd. rewrite cl_A_array_pt, Hr. cbn [rbind]. eexists. split; [reflexivity|].
  rewrite (proj1 P), removelast_snoc. apply map_rows_points. exact P.
Qed.
Lemma cl_B_nd_points s rot S a v : rotation_matrix_v (cl_orient s) (V3 0 0 1) default_tol = Ok rot -> points_of S a v ->
  exists e, cl_B_nd s a = Ok e /\ points_of S e (fun j => frame_pt (fun rho z => V3 (cl_B_rho (cl_radius s) (cl_mu s * cl_current s / PI) rho z) 0 (cl_B_z (cl_radius s) (cl_mu s * cl_current s / PI) rho z)) rot s (v j)).
Proof.
  intros Hr P. unfold cl_B_nd. rewrite cl_B_array_xyz_pt, Hr. cbn [rbind]. eexists. split; [reflexivity|].
  rewrite (proj1 P), removelast_snoc. apply map_rows_points. exact P.
Qed.
Lemma vec_ext_result (f g : vec3 -> result vec3) a out : (forall p, f p = g p) -> one_vector_per_point f a out -> one_vector_per_point g a out.
Proof. intros H (e & E & Es & He). exists e. split; [exact E|]. split; [exact Es|]. intros j Hj. rewrite <- H. apply He. exact Hj. Qed.
Lemma loop_A_nd_ok s c S a : lower c = "cartesian"%string \/ lower c = "cylindrical"%string -> shape a = S ++ [3] ->
  per_point_or_raises (loop_vector_potential s c) a (loop_A_nd s c (XyzArray a)).
Proof.
  intros Hc E. destruct (rotation_matrix_v (cl_orient s) (V3 0 0 1) default_tol) as [rot|x] eqn:Hr.
  - right. unfold loop_A_nd, loop_vector_potential.
    eapply vec_ext_result; [|apply (wc_points (cl_A_nd s) (frame_pt (fun rho z => V3 0 (cl_A_phi (cl_radius s) (cl_mu s * cl_current s / PI) rho z) 0) rot s) c S a); [|exact Hc|exact E]].
    + intros p. unfold with_coordinates. destruct (negb _); [reflexivity|]. destruct (String.eqb _ _).
      * cbn [row_of cylindrical_to_cartesian rbind]. unfold cl_A. rewrite cl_in_frame_pt, Hr. reflexivity.
      * unfold cl_A. rewrite cl_in_frame_pt, Hr. reflexivity.
    + intros b v P. apply cl_A_nd_points; assumption.
  - left. exists x. destruct (check_points S a E) as [Ck P]. split.
    + unfold loop_A_nd, with_coordinates_array. rewrite Ck. destruct Hc as [-> | ->]; cbn [String.eqb Ascii.eqb Bool.eqb orb negb rbind].
      * unfold cl_A_nd. rewrite cl_A_array_pt, Hr. reflexivity.
      * destruct (cyl_to_cart_rows a S 3 E ltac:(lia)) as (c' & -> & _ & _). cbn [rbind]. unfold cl_A_nd. rewrite cl_A_array_pt, Hr. reflexivity.
    + intros p. unfold loop_vector_potential, with_coordinates. destruct Hc as [-> | ->]; cbn [String.eqb Ascii.eqb Bool.eqb orb negb rbind];
      unfold cl_A; cbn [row_of cylindrical_to_cartesian rbind]; rewrite cl_in_frame_pt, Hr; reflexivity.
Qed.
Lemma loop_B_nd_as s c a S : lower c = "cartesian"%string \/ lower c = "cylindrical"%string -> shape a = S ++ [3] ->
  loop_B_nd s c (XyzArray a) = with_coordinates_array (cl_B_nd s) c (XyzArray a).
Proof.
  intros Hc E. unfold loop_B_nd, with_coordinates_array. destruct (check_points S a E) as [-> _]. cbn [rbind].
  destruct Hc as [-> | ->]; reflexivity.
Qed.
Lemma loop_B_as s c p : lower c = "cartesian"%string \/ lower c = "cylindrical"%string ->
  loop_flux_density s c p = with_coordinates (cl_B s) c p.
Proof. intros Hc. unfold loop_flux_density, with_coordinates_loop, with_coordinates. destruct Hc as [-> | ->]; reflexivity. Qed.
Lemma loop_B_nd_ok s c S a : lower c = "cartesian"%string \/ lower c = "cylindrical"%string -> shape a = S ++ [3] ->
  per_point_or_raises (loop_flux_density s c) a (loop_B_nd s c (XyzArray a)).
Proof.
  intros Hc E. rewrite (loop_B_nd_as s c a S Hc E). destruct (rotation_matrix_v (cl_orient s) (V3 0 0 1) default_tol) as [rot|x] eqn:Hr.
  - right. 
    eapply vec_ext_result; [|apply (wc_points (cl_B_nd s) (frame_pt (fun rho z => V3 (cl_B_rho (cl_radius s) (cl_mu s * cl_current s / PI) rho z) 0 (cl_B_z (cl_radius s) (cl_mu s * cl_current s / PI) rho z)) rot s) c S a); [|exact Hc|exact E]].
    + intros p. rewrite loop_B_as by exact Hc. unfold with_coordinates. destruct (negb _); [reflexivity|]. destruct (String.eqb _ _).
      * cbn [row_of cylindrical_to_cartesian rbind]. unfold cl_B. rewrite cl_in_frame_pt, Hr. reflexivity.
      * unfold cl_B. rewrite cl_in_frame_pt, Hr. reflexivity.
    + intros b v P. apply cl_B_nd_points; assumption.
  - left. exists x. destruct (check_points S a E) as [Ck P]. split.
    + unfold with_coordinates_array. rewrite Ck. destruct Hc as [-> | ->]; cbn [String.eqb Ascii.eqb Bool.eqb orb negb rbind].
      * unfold cl_B_nd. rewrite cl_B_array_xyz_pt, Hr. reflexivity.
      * destruct (cyl_to_cart_rows a S 3 E ltac:(lia)) as (c' & -> & _ & _). cbn [rbind]. unfold cl_B_nd. rewrite cl_B_array_xyz_pt, Hr. reflexivity.
    + intros p. rewrite loop_B_as by exact Hc. unfold with_coordinates. destruct Hc as [-> | ->]; cbn [String.eqb Ascii.eqb Bool.eqb orb negb rbind];
      unfold cl_B; cbn [row_of cylindrical_to_cartesian rbind]; rewrite cl_in_frame_pt, Hr; reflexivity.
Qed.
Lemma loop_H_nd_ok s c S a : lower c = "cartesian"%string \/ lower c = "cylindrical"%string -> shape a = S ++ [3] ->
  per_point_or_raises (loop_field s c) a (loop_H_nd s c (XyzArray a)).
Proof.
  intros Hc E. unfold loop_H_nd, loop_field. destruct (loop_B_nd_ok s c S a Hc E) as [(x & -> & H)|H].
  - left. exists x. split; [reflexivity|]. intros p. rewrite H. reflexivity.
  - right. apply div_vector. exact H.
Qed.
Lemma loop_names s c S a : lower c <> "cartesian"%string -> lower c <> "cylindrical"%string -> shape a = S ++ [3] ->
  loop_A_nd s c (XyzArray a) = Raise AssertionError /\ loop_B_nd s c (XyzArray a) = Raise TypeError /\ loop_H_nd s c (XyzArray a) = Raise TypeError.
Proof.
  intros H1 H2 E. split; [apply wc_rejects_name; assumption|]. unfold loop_H_nd, loop_B_nd. destruct (check_points S a E) as [-> _]. cbn [rbind].
  apply String.eqb_neq in H1, H2. rewrite H1, H2. split; reflexivity.
Qed.

(** ** spheres *)
Lemma numbers_ok S a (f : list vec3 -> result (list R)) g : shape a = S ++ [3] -> (forall l, f l = Ok (map g l)) ->
  one_number_per_point g a (rmap (of_entries 0%R (removelast (shape a))) (f (rows a))).
Proof.
  intros E H. unfold one_number_per_point. rewrite H, (rows_eq S a E), E, removelast_snoc, map_map. cbn [rmap]. eexists. split; [reflexivity|].
  exact (of_entries_at 0%R S (fun j => g (vec_at a j))).
Qed.
Lemma rows_ok S a (f : list vec3 -> result (list vec3)) g : shape a = S ++ [3] -> (forall l, f l = Ok (map g l)) ->
  one_vector_per_point (fun p => Ok (g p)) a (rmap (of_rows (removelast (shape a))) (f (rows a))).
Proof.
  intros E H. unfold one_vector_per_point. rewrite H, (rows_eq S a E), E, removelast_snoc, map_map. cbn [rmap]. eexists. split; [reflexivity|].
  destruct (of_rows_at S (fun j => g (vec_at a j))) as [Eo Ho]. split; [exact Eo|]. intros j Hj. rewrite (Ho j Hj). reflexivity.
Qed.
Section Modes.
  Context {A : Type} (sub : A -> A -> A) (f : list vec3 -> string -> result (fields A)) (total primary : vec3 -> A).
  Hypothesis M : modes sub f total primary.
  Variables (per : (vec3 -> result A) -> nd R -> nd R -> Prop) (a : nd R) (mk : list A -> nd R).
  Hypothesis Hext : forall g h e, (forall p, g p = h p) -> per g a e -> per h a e.
  Hypothesis Hmk : forall g, per (fun p => Ok (g p)) a (mk (map g (rows a))).
  Lemma modes_ok : modes_per_point per f a (fun field => rmap (shaped mk) (f (rows a) field)).
  Proof.
    destruct (M (rows a)) as (T & P & S' & O).
    assert (Q : forall p, one_value (f [p] "total"%string) = Ok (total p) /\ one_value (f [p] "primary"%string) = Ok (primary p) /\ one_value (f [p] "secondary"%string) = Ok (sub (total p) (primary p))).
    { intros p. destruct (M [p]) as (-> & -> & -> & _). repeat split. }
    intros field. destruct (String.string_dec field "total") as [->|N1]; [|destruct (String.string_dec field "primary") as [->|N2]; [|destruct (String.string_dec field "secondary") as [->|N3]]].
    - left. split; [left; reflexivity|]. rewrite T. eexists. split; [reflexivity|]. eapply Hext; [|apply Hmk]. intros p. symmetry. apply Q.
    - left. split; [right; left; reflexivity|]. rewrite P. eexists. split; [reflexivity|]. eapply Hext; [|apply Hmk]. intros p. symmetry. apply Q.
    - left. split; [right; right; reflexivity|]. rewrite S'. eexists. split; [reflexivity|]. eapply Hext; [|apply (Hmk (fun p => sub (total p) (primary p)))]. intros p. symmetry. apply Q.
    - right. split; [intros [H|[H|H]]; contradiction|]. rewrite (O field N1 N2 N3). do 3 eexists. split; [reflexivity|].
      split; [|split]; (eapply Hext; [|apply Hmk || apply (Hmk (fun p => sub (total p) (primary p)))]; intros p; symmetry; apply Q).
  Qed.
End Modes.
Lemma per_vector_ext g h a e : (forall p, g p = h p) -> per_vector g a e -> per_vector h a e.
Proof. apply vec_ext_result. Qed.
Lemma per_number_ext g h a e : (forall p, g p = h p) -> per_number g a e -> per_number h a e.
Proof. intros H [E K]. split; [exact E|]. intros j Hj. rewrite <- H. apply K. exact Hj. Qed.
Lemma vector_mk S a g : shape a = S ++ [3] -> per_vector (fun p => Ok (g p)) a (of_rows S (map g (rows a))).
Proof.
  intros E. unfold per_vector, one_vector_per_point. rewrite E, removelast_snoc, (rows_eq S a E), map_map. eexists. split; [reflexivity|].
  destruct (of_rows_at S (fun j => g (vec_at a j))) as [Eo Ho]. split; [exact Eo|]. intros j Hj. rewrite (Ho j Hj). reflexivity.
Qed.
Lemma number_mk S a g : shape a = S ++ [3] -> per_number (fun p => Ok (g p)) a (of_entries 0%R S (map g (rows a))).
Proof.
  intros E. unfold per_number. rewrite E, removelast_snoc, (rows_eq S a E), map_map.
  destruct (of_entries_at 0%R S (fun j => g (vec_at a j))) as [Eo Ho]. split; [exact Eo|]. intros j Hj. rewrite (Ho j Hj). reflexivity.
Qed.
Lemma sphere_nd_ok s S a : shape a = S ++ [3] ->
  modes_per_point per_number (sphere_potential s) a (sphere_potential_nd s (XyzArray a)) /\
  modes_per_point per_vector (sphere_field s) a (sphere_field_nd s (XyzArray a)) /\
  modes_per_point per_vector (sphere_flux s) a (sphere_flux_nd s (XyzArray a)).
Proof.
  intros E. destruct (check_points S a E) as [Ck _]. unfold sphere_potential_nd, sphere_field_nd, sphere_flux_nd. rewrite Ck. cbn [rbind]. rewrite E, removelast_snoc.
  split; [|split].
  - eapply modes_ok; [apply sphere_potential_modes|intros; eapply per_number_ext; eassumption|intros g; apply number_mk; exact E].
  - eapply modes_ok; [apply sphere_field_modes|intros; eapply per_vector_ext; eassumption|intros g; apply vector_mk; exact E].
  - eapply modes_ok; [apply sphere_flux_modes|intros; eapply per_vector_ext; eassumption|intros g; apply vector_mk; exact E].
Qed.
Lemma number_ext_per g h a out : (forall p, g p = h p) -> one_number_per_point g a out -> one_number_per_point h a out.
Proof. intros H (e & E & Es & K). exists e. split; [exact E|]. split; [exact Es|]. intros j Hj. rewrite <- H. apply K. exact Hj. Qed.
Lemma charge_nd_ok eps0 s dr S a : shape a = S ++ [3] ->
  one_number_per_point (eval1 0%R (fun l => charge_density eps0 s l dr)) a (charge_density_nd eps0 s (XyzArray a) dr).
Proof.
  intros E. unfold charge_density_nd. destruct (check_points S a E) as [-> _]. cbn [rbind].
  eapply number_ext_per; [|eapply (numbers_ok S a (fun l => charge_density eps0 s l dr)); [exact E|intro l; apply charge_density_pt]].
  intros p. unfold eval1. rewrite charge_density_pt. reflexivity.
Qed.
Lemma gs_nd_ok s S a : shape a = S ++ [3] ->
  one_number_per_point (eval1 0%R (gs_potential_grid s)) a (gs_potential_nd s (XyzArray a)) /\
  one_vector_per_point (fun p => Ok (eval1 vzero (gs_field_grid s) p)) a (gs_field_nd s (XyzArray a)) /\
  one_block_per_point (eval1 None (gs_gradient_grid s)) a (gs_gradient_nd s (XyzArray a)).
Proof.
  intros E. unfold gs_potential_nd, gs_field_nd, gs_gradient_nd. destruct (check_points S a E) as [-> _]. cbn [rbind]. split; [|split].
  - eapply number_ext_per; [|eapply numbers_ok; [exact E|intro l; apply gs_potential_grid_pt]]. intros p. unfold eval1. rewrite gs_potential_grid_pt. reflexivity.
  - eapply vec_ext_result; [|eapply rows_ok; [exact E|intro l; apply gs_field_grid_pt]]. intros p. unfold eval1. rewrite gs_field_grid_pt. reflexivity.
  - unfold one_block_per_point. rewrite gs_gradient_grid_pt, (rows_eq S a E), E, removelast_snoc, map_map. cbn [rmap]. eexists. split; [reflexivity|].
    destruct (of_entries_at (@None mat3) S (fun j => gs_gradient_pt s (vec_at a j))) as [Eo Ho]. split; [exact Eo|].
    intros j Hj. rewrite (Ho j Hj). unfold eval1. rewrite gs_gradient_grid_pt. reflexivity.
Qed.
