(** Array evaluations are pointwise (C84). *)
From Coq Require Import String Reals Lra List Bool.
From Coquelicot Require Import Coquelicot.
From Verif Require Import Vec3 Numpy Model_Spatial Model_Prism Model_Static Model_Gravity Model_Batch Spec_Batch
  Proof_Gravity Proof_Sphere Proof_Prism Proof_Prism4.
Import ListNotations.
Open Scope R_scope.

Definition uniform {P A} (f : list P -> result (list A)) : Prop :=
  (exists e, forall xs, f xs = Raise e) \/ (exists g, forall xs, f xs = Ok (map g xs)).

Lemma uniform_pointwise {P A} (f : list P -> result (list A)) : uniform f -> pointwise f.
Proof.
  intros [[e H]|[g H]] xs N; rewrite H.
  - destruct xs as [|x xs]; [congruence|]. exists x. split; [left; reflexivity|apply H].
  - clear N. induction xs as [|x xs IH]; [constructor|]. cbn. constructor; [apply H|exact IH].
Qed.

Lemma map2_map {A B C D} (f : A -> B -> C) (g : D -> A) (h : D -> B) xs :
  map2 f (map g xs) (map h xs) = map (fun x => f (g x) (h x)) xs.
Proof. unfold map2. rewrite map_combine_map. reflexivity. Qed.
Lemma combine_map2 {A B D} (g : D -> A) (h : D -> B) xs : combine (map g xs) (map h xs) = map (fun x => (g x, h x)) xs.
Proof. induction xs as [|x xs IH]; [reflexivity|]. cbn. rewrite IH. reflexivity. Qed.
Lemma map3_map {A B C E D} (f : A -> B -> C -> E) (g : D -> A) (h : D -> B) (k : D -> C) xs :
  map3 f (map g xs) (map h xs) (map k xs) = map (fun x => f (g x) (h x) (k x)) xs.
Proof. unfold map3. rewrite combine_map2, map2_map. reflexivity. Qed.
Lemma each_row_ok {A B} (f : A -> result B) (g : A -> B) xs : (forall x, f x = Ok (g x)) -> each_row f xs = Ok (map g xs).
Proof. intro H. induction xs as [|x xs IH]; [reflexivity|]. cbn. rewrite H, IH. reflexivity. Qed.

Lemma cl_A_phi_array_pt {D} a C (f g : D -> R) xs :
  cl_A_phi_array a C (map f xs) (map g xs) = Ok (map (fun x => cl_A_phi a C (f x) (g x)) xs).
Proof.
  unfold cl_A_phi_array. cbv zeta. rewrite ?map2_map, ?map_map. rewrite ?mask_select_map, ?map_map.
  rewrite ?map3_map, ?map2_map, ?map_map, ?map2_map.
  rewrite mask_assign_pointwise. cbn [rbind].
  rewrite mask_assign_pointwise. f_equal. apply map_ext. intro x. unfold cl_A_phi. cbv zeta.
  destruct (small_rho _ _ _); reflexivity.
Qed.
Lemma cl_B_array_pt {D} a C (f g : D -> R) xs :
  cl_B_array a C (map f xs) (map g xs) = Ok (map (fun x => (cl_B_rho a C (f x) (g x), cl_B_z a C (f x) (g x))) xs).
Proof.
  unfold cl_B_array. cbv zeta. rewrite ?map2_map, ?map_map. rewrite ?mask_select_map, ?map_map.
  rewrite ?map3_map, ?map2_map, ?map_map, ?map2_map.
  rewrite mask_assign_pointwise. cbn [rbind].
  rewrite mask_assign_pointwise. cbn [rbind]. rewrite combine_map2. f_equal. apply map_ext. intro x. unfold cl_B_rho, cl_B_z. cbv zeta.
  destruct (small_rho _ _ _); reflexivity.
Qed.

Lemma c2cyl_total : exists g, forall v, cartesian_to_cylindrical (row_of v) = Ok (g v) /\ List.length (g v) = 3%nat.
Proof. eexists. intro v. split; reflexivity. Qed.

Definition frame_pt (comp : R -> R -> vec3) (rot : mat3) (s : cloop) (p : vec3) : vec3 :=
  let v := mvec rot (vsub p (cl_loc s)) in
  let phi := atan2 (vy v) (vx v) in
  let c := comp (sqrt (vx v ^ 2 + vy v ^ 2)) (vz v) in
  mvec (mtrans rot) (V3 (vx c * cos phi - vy c * sin phi) (vx c * sin phi + vy c * cos phi) (vz c)).

Lemma cl_in_frame_pt comp s p : cl_in_frame comp s p
  = match rotation_matrix_v (cl_orient s) (V3 0 0 1) default_tol with Ok rot => Ok (frame_pt comp rot s p) | Raise e => Raise e end.
Proof. unfold cl_in_frame. destruct (rotation_matrix_v _ _ _); reflexivity. Qed.

Lemma cl_frame_array_pt comp compa s xyz :
  (forall (f g : vec3 -> R) xs, compa (map f xs) (map g xs) = Ok (map (fun x => comp (f x) (g x)) xs)) ->
  cl_frame_array compa s xyz
  = match rotation_matrix_v (cl_orient s) (V3 0 0 1) default_tol with Ok rot => Ok (map (frame_pt comp rot s) xyz) | Raise e => Raise e end.
Proof.
  intro H. unfold cl_frame_array. destruct (rotation_matrix_v _ _ _) as [rot|e]; [|reflexivity]. cbn [rbind]. cbv zeta.
  rewrite (each_row_ok _ (fun v => [sqrt (vx v ^ 2 + vy v ^ 2); atan2 (vy v) (vx v); vz v])) by reflexivity.
  cbn [rbind]. rewrite !map_map. rewrite H. cbn [rbind]. rewrite combine_map2.
  assert (L : forall (h1 : vec3 -> list R) (h2 : vec3 -> vec3) (r : vec3 -> list R) xs,
    (forall x, cylindrical_to_cartesian_vec (h1 x) (row_of (h2 x)) = Ok (r x)) ->
    each_row (fun rv => cylindrical_to_cartesian_vec (fst rv) (row_of (snd rv))) (map (fun x => (h1 x, h2 x)) xs) = Ok (map r xs)).
  { intros h1 h2 r xs E. induction xs as [|x xs IH]; [reflexivity|]. cbn [map each_row fst snd]. rewrite E. cbn [rbind]. rewrite IH. reflexivity. }
  erewrite L; [|intro x; reflexivity]. cbn [rbind]. rewrite map_map. reflexivity.
Qed.

Lemma cl_A_array_pt s xyz : cl_A_array s xyz
  = match rotation_matrix_v (cl_orient s) (V3 0 0 1) default_tol with
    | Ok rot => Ok (map (frame_pt (fun rho z => V3 0 (cl_A_phi (cl_radius s) (cl_mu s * cl_current s / PI) rho z) 0) rot s) xyz)
    | Raise e => Raise e end.
Proof. unfold cl_A_array. apply cl_frame_array_pt. intros f g xs. rewrite cl_A_phi_array_pt. cbn [rmap]. rewrite map_map. reflexivity. Qed.
Lemma cl_B_array_xyz_pt s xyz : cl_B_array_xyz s xyz
  = match rotation_matrix_v (cl_orient s) (V3 0 0 1) default_tol with
    | Ok rot => Ok (map (frame_pt (fun rho z => V3 (cl_B_rho (cl_radius s) (cl_mu s * cl_current s / PI) rho z) 0
                               (cl_B_z (cl_radius s) (cl_mu s * cl_current s / PI) rho z)) rot s) xyz)
    | Raise e => Raise e end.
Proof. unfold cl_B_array_xyz. apply cl_frame_array_pt. intros f g xs. rewrite cl_B_array_pt. cbn [rmap]. rewrite map_map. reflexivity. Qed.

Definition to_xyz (p : vec3) : vec3 := V3 (vx p * cos (vy p)) (vx p * sin (vy p)) (vz p).
Definition to_cyl_vec (p v : vec3) : vec3 :=
  let t := atan2 (vy p) (vx p) in V3 (cos t * vx v + sin t * vy v) (- sin t * vx v + cos t * vy v) (vz v).
Lemma convert_rows_pt xyz : convert_rows cylindrical_to_cartesian xyz = Ok (map to_xyz xyz).
Proof. unfold convert_rows. apply each_row_ok. intro p. reflexivity. Qed.
Lemma convert_vec_rows_pt (f g : vec3 -> vec3) xyz :
  convert_vec_rows cartesian_to_cylindrical_vec (map f xyz) (map g xyz) = Ok (map (fun p => to_cyl_vec (f p) (g p)) xyz).
Proof.
  unfold convert_vec_rows. rewrite combine_map2.
  rewrite (each_row_ok _ (fun pv => to_cyl_vec (fst pv) (snd pv))) by reflexivity. rewrite map_map. reflexivity.
Qed.

(** the array routine against the one-point routine of Model_Static.v *)
Definition agrees {P A} (f : list P -> result (list A)) (f1 : P -> result A) : Prop :=
  forall p, f [p] = rmap (fun v => [v]) (f1 p).

Lemma loop_A_uniform s c : uniform (loop_vector_potential_array s c).
Proof.
  unfold uniform, loop_vector_potential_array.
  destruct (negb _); [left; eexists; reflexivity|].
  destruct (rotation_matrix_v (cl_orient s) (V3 0 0 1) default_tol) as [rot|e] eqn:E.
  - right. destruct (String.eqb (lower c) "cylindrical").
    + eexists. intro xs. rewrite convert_rows_pt. cbn [rbind]. rewrite cl_A_array_pt, E. cbn [rbind].
      rewrite map_map, convert_vec_rows_pt. reflexivity.
    + eexists. intro xs. cbn [rbind]. rewrite cl_A_array_pt, E. reflexivity.
  - left. exists e. intro xs. destruct (String.eqb (lower c) "cylindrical").
    + rewrite convert_rows_pt. cbn [rbind]. rewrite cl_A_array_pt, E. reflexivity.
    + cbn [rbind]. rewrite cl_A_array_pt, E. reflexivity.
Qed.
Lemma loop_B_uniform s c : uniform (loop_flux_density_array s c).
Proof.
  unfold uniform, loop_flux_density_array.
  destruct (String.eqb (lower c) "cylindrical").
  - destruct (rotation_matrix_v (cl_orient s) (V3 0 0 1) default_tol) as [rot|e] eqn:E; [right|left]; eexists; intro xs;
    rewrite convert_rows_pt; cbn [rbind]; rewrite cl_B_array_xyz_pt, E; cbn [rbind]; [|reflexivity].
    rewrite map_map, convert_vec_rows_pt. reflexivity.
  - destruct (negb _); [left; eexists; reflexivity|]. cbn [rbind].
    destruct (rotation_matrix_v (cl_orient s) (V3 0 0 1) default_tol) as [rot|e] eqn:E; [right|left]; eexists; intro xs;
    rewrite cl_B_array_xyz_pt, E; reflexivity.
Qed.
Lemma uniform_rmap {P A B} (h : A -> B) (f : list P -> result (list A)) : uniform f -> uniform (fun xs => rmap (map h) (f xs)).
Proof.
  intros [[e H]|[g H]]; [left; exists e|right; exists (fun p => h (g p))]; intro xs; rewrite H; cbn; [reflexivity|]. rewrite map_map. reflexivity.
Qed.

Lemma loop_A_agrees s c : agrees (loop_vector_potential_array s c) (loop_vector_potential s c).
Proof.
  intro p. unfold loop_vector_potential_array, loop_vector_potential, with_coordinates.
  destruct (negb _); [reflexivity|]. destruct (String.eqb (lower c) "cylindrical").
  - rewrite convert_rows_pt. cbn [rbind]. rewrite cl_A_array_pt. unfold cl_A.
    change (cylindrical_to_cartesian (row_of p)) with (Ok (row_of (to_xyz p))). cbn [rbind]. cbv zeta.
    change (as_vec3 (row_of (to_xyz p))) with (to_xyz p). rewrite cl_in_frame_pt.
    destruct (rotation_matrix_v _ _ _); reflexivity.
  - cbn [rbind]. rewrite cl_A_array_pt. unfold cl_A. rewrite cl_in_frame_pt. destruct (rotation_matrix_v _ _ _); reflexivity.
Qed.
Lemma loop_B_agrees s c : agrees (loop_flux_density_array s c) (loop_flux_density s c).
Proof.
  intro p. unfold loop_flux_density_array, loop_flux_density, with_coordinates_loop.
  destruct (String.eqb (lower c) "cylindrical").
  - rewrite convert_rows_pt. cbn [rbind]. rewrite cl_B_array_xyz_pt. unfold cl_B.
    change (cylindrical_to_cartesian (row_of p)) with (Ok (row_of (to_xyz p))). cbn [rbind]. cbv zeta.
    change (as_vec3 (row_of (to_xyz p))) with (to_xyz p). rewrite cl_in_frame_pt.
    destruct (rotation_matrix_v _ _ _); reflexivity.
  - destruct (negb _); [reflexivity|]. cbn [rbind]. rewrite cl_B_array_xyz_pt. unfold cl_B. rewrite cl_in_frame_pt. destruct (rotation_matrix_v _ _ _); reflexivity.
Qed.

Lemma C84_loop_lemma s c :
  pointwise (loop_vector_potential_array s c) /\ pointwise (loop_flux_density_array s c) /\ pointwise (loop_field_array s c) /\
  forall p, loop_vector_potential_array s c [p] = rmap (fun v => [v]) (loop_vector_potential s c p) /\
            loop_flux_density_array s c [p] = rmap (fun v => [v]) (loop_flux_density s c p) /\
            loop_field_array s c [p] = rmap (fun v => [v]) (loop_field s c p).
Proof.
  split; [apply uniform_pointwise, loop_A_uniform|]. split; [apply uniform_pointwise, loop_B_uniform|].
  split; [apply uniform_pointwise, uniform_rmap, loop_B_uniform|]. intro p.
  split; [apply loop_A_agrees|]. split; [apply loop_B_agrees|].
  unfold loop_field_array, loop_field. rewrite loop_B_agrees. destruct (loop_flux_density s c p); reflexivity.
Qed.

(** spheres *)
Lemma pointwise_map {P A} (f : list P -> result (list A)) g : (forall xs, f xs = Ok (map g xs)) -> pointwise f.
Proof. intro H. apply uniform_pointwise. right. exists g. exact H. Qed.
Lemma C84_gravity_lemma s : pointwise (gs_potential_grid s) /\ pointwise (gs_field_grid s) /\ pointwise (gs_gradient_grid s).
Proof.
  split; [|split]; eapply pointwise_map; intro xs; [apply gs_potential_grid_pt|apply gs_field_grid_pt|apply gs_gradient_grid_pt].
Qed.
Lemma C84_prism_lemma mu0 b m :
  pointwise (magnetic_flux_density mu0 b m) /\ pointwise np_prism_f /\ pointwise np_prism_fz /\ pointwise np_prism_fzz /\
  pointwise np_prism_fzx /\ pointwise np_prism_fzy /\ pointwise np_prism_fzzz /\ pointwise np_prism_fxxy /\ pointwise np_prism_fxxz /\ pointwise np_prism_fxyz.
Proof.
  split; [eapply pointwise_map; intro xs; apply flux_pointwise|].
  split; [eapply pointwise_map; intro xs; apply np_f_agrees|].
  split; [eapply pointwise_map; intro xs; apply np_fz_agrees|].
  split; [eapply pointwise_map; intro xs; apply np_fzz_agrees|].
  split; [eapply pointwise_map; intro xs; apply np_fzx_agrees|].
  split; [eapply pointwise_map; intro xs; apply np_fzy_agrees|].
  split; [eapply pointwise_map; intro xs; apply np_fzzz_agrees|].
  split; [eapply pointwise_map; intro xs; apply np_fxxy_agrees|].
  split; [eapply pointwise_map; intro xs; apply np_fxxz_agrees|].
  eapply pointwise_map; intro xs; apply np_fxyz_agrees.
Qed.

Lemma Forall2_map_r {P A} (R : P -> A -> Prop) (g : P -> A) xs : (forall x, R x (g x)) -> Forall2 R xs (map g xs).
Proof. intro H. induction xs; cbn; constructor; auto. Qed.
Lemma modes_pointwise {P A} (sub : A -> A -> A) (f : list P -> string -> result (fields A)) total primary :
  modes sub f total primary -> pointwise_fields f.
Proof.
  intros M xs field.
  destruct (String.string_dec field "total") as [->|N1].
  { rewrite (proj1 (M xs)). apply Forall2_map_r. intro q. apply (proj1 (M [q])). }
  destruct (String.string_dec field "primary") as [->|N2].
  { rewrite (proj1 (proj2 (M xs))). apply Forall2_map_r. intro q. apply (proj1 (proj2 (M [q]))). }
  destruct (String.string_dec field "secondary") as [->|N3].
  { rewrite (proj1 (proj2 (proj2 (M xs)))). apply Forall2_map_r. intro q. apply (proj1 (proj2 (proj2 (M [q])))). }
  rewrite (proj2 (proj2 (proj2 (M xs))) field N1 N2 N3).
  split; [|split]; apply Forall2_map_r; intro q; do 2 eexists; apply (proj2 (proj2 (proj2 (M [q]))) field N1 N2 N3).
Qed.
Lemma C84_sphere_lemma eps0 s dr :
  pointwise_fields (sphere_potential s) /\ pointwise_fields (sphere_field s) /\ pointwise_fields (sphere_flux s) /\
  pointwise (fun xyz => charge_density eps0 s xyz dr).
Proof.
  split; [eapply modes_pointwise; apply sphere_potential_modes|]. split; [eapply modes_pointwise; apply sphere_field_modes|].
  split; [eapply modes_pointwise; apply sphere_flux_modes|]. eapply pointwise_map. intro xs. apply charge_density_pt.
Qed.
