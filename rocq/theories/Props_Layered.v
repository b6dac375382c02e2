(** Properties of geoana/em/fdem/layered.py: C65, C66, C67, C84 (layered part), C87, C99. *)
From Coq Require Import String Reals Lra Lia List Arith Bool.
From Coquelicot Require Import Coquelicot.
From Verif Require Import Vec3 Cplx Numpy Model_RTE Model_Static Model_Layered Spec_FDEM Spec_Layered Proof_Layered Proof_Layered2 Proof_Layered3 Proof_Layered4 Proof_Layered5.
Import ListNotations.
Open Scope R_scope.

(** C65: whenever the total field is computed so is the secondary field, and at every frequency
    and receiver beside the source they differ by the field of the static dipole of
    MagneticDipoleWholeSpace; straight above or below the source both are undefined. *)
Theorem C65_total_is_secondary_plus_static mu_0 flt s xyz mu t : mu <> 0 -> magnetic_field mu_0 flt s xyz "total" = Ok t ->
  exists u, magnetic_field mu_0 flt s xyz "secondary" = Ok u /\
    shaped (n_frequency s) (length xyz) t /\ shaped (n_frequency s) (length xyz) u /\
    forall f k, (f < n_frequency s)%nat -> (k < length xyz)%nat ->
    match entry t f k, entry u f k with
    | Some a, Some b => beside (nth k xyz vzero) (ly_location s) /\
        cvsub a b = cvof (RtoC 1) (vdiv (md_B (MD (ly_moment s) (ly_orientation s) (ly_location s) mu) (nth k xyz vzero)) mu)
    | None, None => ~ beside (nth k xyz vzero) (ly_location s)
    | _, _ => False
    end.
Proof. exact (total_lemma mu_0 flt s xyz mu t). Qed.

(** C65: linear in the dipole moment vector *)
Theorem C65_linear_in_the_dipole mu_0 flt s xyz field o m o1 m1 o2 m2 r1 :
  vscal m o = vadd (vscal m1 o1) (vscal m2 o2) ->
  magnetic_field mu_0 flt (with_dipole s (ly_location s) o1 m1) xyz field = Ok r1 ->
  exists r2 r, magnetic_field mu_0 flt (with_dipole s (ly_location s) o2 m2) xyz field = Ok r2 /\
    magnetic_field mu_0 flt (with_dipole s (ly_location s) o m) xyz field = Ok r /\
    forall f k, (f < n_frequency s)%nat -> (k < length xyz)%nat ->
    match entry r1 f k, entry r2 f k, entry r f k with
    | Some a, Some b, Some c => c = cvadd a b
    | None, None, None => True
    | _, _, _ => False
    end.
Proof. exact (linear_lemma mu_0 flt s xyz field o m o1 m1 o2 m2 r1). Qed.

(** C65: rotating source, orientation and receivers about the vertical rotates the field *)
Theorem C65_rotation mu_0 flt s xyz field t r :
  magnetic_field mu_0 flt s xyz field = Ok r ->
  exists r', magnetic_field mu_0 flt (with_dipole s (rotate_z t (ly_location s)) (rotate_z t (ly_orientation s)) (ly_moment s)) (map (rotate_z t) xyz) field = Ok r' /\
    forall f k, (f < n_frequency s)%nat -> (k < length xyz)%nat -> entry r' f k = option_map (crotate_z t) (entry r f k).
Proof. exact (rotate_lemma mu_0 flt s xyz field t r). Qed.

(** C65: moving source and receivers horizontally changes nothing *)
Theorem C65_horizontal_shift mu_0 flt s xyz field dx dy r :
  magnetic_field mu_0 flt s xyz field = Ok r ->
  magnetic_field mu_0 flt (with_dipole s (vadd (ly_location s) (V3 dx dy 0)) (ly_orientation s) (ly_moment s)) (map (fun p => vadd p (V3 dx dy 0)) xyz) field = Ok r.
Proof. exact (shift_lemma mu_0 flt s xyz field dx dy r). Qed.

(** C65: reciprocity: exchanging source and receiver exchanges the components *)
Theorem C65_reciprocity mu_0 flt s a b o1 o2 m field r1 r2 f :
  (f < n_frequency s)%nat ->
  magnetic_field mu_0 flt (with_dipole s a o1 m) [b] field = Ok r1 ->
  magnetic_field mu_0 flt (with_dipole s b o2 m) [a] field = Ok r2 ->
  match entry r1 f 0, entry r2 f 0 with
  | Some h1, Some h2 => cvdot h1 o2 = cvdot h2 o1
  | None, None => True
  | _, _ => False
  end.
Proof. exact (reciprocal_lemma mu_0 flt s a b o1 o2 m field r1 r2 f). Qed.

(** C65: a receiver below the surface is refused *)
Theorem C65_receivers_below_are_refused mu_0 flt s xyz field p : In p xyz -> vz p < 0 -> magnetic_field mu_0 flt s xyz field = Raise ValueError.
Proof. exact (below_lemma mu_0 flt s xyz field p). Qed.

(** C65, C66: the constructor refuses a source below the surface and makes arrays that fit *)
Theorem C65_constructed_objects mu_0 eps_0 fr th sg m e q loc o mom s :
  construct mu_0 eps_0 fr th sg m e q loc o mom = Ok s -> 0 <= vz (ly_location s) /\ consistent s.
Proof. exact (construct_above mu_0 eps_0 fr th sg m e q loc o mom s). Qed.

(** C65: assigning a location below the surface afterwards is not refused, then or later *)
Theorem C65_source_below_surface_refuted mu_0 eps_0 flt s p xyz field :
  consistent s -> ly_frequency s <> [] -> hf_base flt <> [] -> xyz <> [] -> above xyz ->
  ly_location (after mu_0 eps_0 s (Set_location p)) = p /\
  exists r, magnetic_field mu_0 flt (after mu_0 eps_0 s (Set_location p)) xyz field = Ok r.
Proof. intros A B D E F. split; [reflexivity|exact (below_refuted mu_0 eps_0 flt s p xyz field A B D E F)]. Qed.

(** C66: as long as assignments keep the numbers of layers and frequencies (any number of
    frequencies for one-dimensional properties) the field can be computed *)
Theorem C66_careful_histories_work mu_0 eps_0 flt s l xyz field :
  consistent s -> careful mu_0 eps_0 s l ->
  ly_frequency (history mu_0 eps_0 s l) <> [] -> hf_base flt <> [] -> xyz <> [] -> above xyz ->
  exists r, magnetic_field mu_0 flt (history mu_0 eps_0 s l) xyz field = Ok r /\ shaped (n_frequency (history mu_0 eps_0 s l)) (length xyz) r.
Proof. intros A B. exact (consistent_works mu_0 flt (history mu_0 eps_0 s l) xyz field (careful_lemma mu_0 eps_0 l s A B)). Qed.

(** C66: an accepted thickness array of another length makes every later call fail *)
Theorem C66_new_number_of_layers_refuted mu_0 eps_0 flt s v t xyz field :
  consistent s -> new_thickness v = Ok t -> length t <> length (ly_thickness s) ->
  magnetic_field mu_0 flt (after mu_0 eps_0 s (Set_thickness v)) xyz field = Raise ValueError.
Proof. exact (stale_thickness mu_0 eps_0 flt s v t xyz field). Qed.

(** C66: so does another number of frequencies when mu, or sigma of a quasistatic object, is two-dimensional *)
Theorem C66_new_number_of_frequencies_refuted mu_0 eps_0 flt s v f xyz field a :
  consistent s -> new_frequency v = Ok f -> length f <> n_frequency s ->
  ly_mu s = P2 a \/ ly_quasistatic s = true /\ ly_sigma s = P2 a ->
  magnetic_field mu_0 flt (after mu_0 eps_0 s (Set_frequency v)) xyz field = Raise ValueError.
Proof. exact (stale_frequency mu_0 eps_0 flt s v f xyz field a). Qed.

(** C66: the exact condition on the stored shapes, for every state *)
Theorem C66_exactly_when mu_0 flt s xyz field : ly_frequency s <> [] -> hf_base flt <> [] -> xyz <> [] -> above xyz ->
  ((exists r, magnetic_field mu_0 flt s xyz field = Ok r) <-> computable s) /\
  (~ computable s -> magnetic_field mu_0 flt s xyz field = Raise ValueError).
Proof. intros A B D E. split; [exact (works_iff mu_0 flt s xyz field A B D E)|exact (raises_ValueError mu_0 flt s xyz field)]. Qed.

(** C67: right for one layer and one frequency *)
Theorem C67_one_layer_one_frequency s : consistent s -> n_layer s = 1%nat -> n_frequency s = 1%nat ->
  exists a, sigma_hat_property s = Ok a /\ a_rows a = n_layer s /\ a_cols a = n_frequency s /\ a_at a 0 0 = hat s 0 0.
Proof. exact (hat_one s). Qed.
(** C67: quasistatic, or one frequency: the values are right but rows and columns are exchanged *)
Theorem C67_transposed s : consistent s -> ly_quasistatic s = true \/ n_frequency s = 1%nat ->
  exists a, sigma_hat_property s = Ok a /\ a_rows a = n_frequency s /\ a_cols a = n_layer s /\
    forall l f, (l < n_layer s)%nat -> (f < n_frequency s)%nat -> a_at a f l = hat s l f.
Proof. exact (hat_transposed s). Qed.
(** C67: with as many layers as frequencies the entry for layer l and frequency f belongs to layer f *)
Theorem C67_square s : consistent s -> n_layer s = n_frequency s ->
  exists a, sigma_hat_property s = Ok a /\ a_rows a = n_layer s /\ a_cols a = n_frequency s /\
    forall l f, (l < n_layer s)%nat -> (f < n_layer s)%nat ->
      a_at a l f = if ly_quasistatic s then pvalue (ly_sigma s) f l
        else (pvalue (ly_sigma s) f l + Ci * RtoC (2 * PI * rget (ly_frequency s) f) * pvalue (ly_epsilon s) f l)%C.
Proof. exact (hat_square s). Qed.
(** C67: with different numbers the shape is wrong, or the property raises *)
Theorem C67_shape_refuted s : consistent s -> n_layer s <> n_frequency s ->
  match sigma_hat_property s with Ok a => a_rows a <> n_layer s | Raise e => True end.
Proof. exact (hat_refuted s). Qed.
Theorem C67_raises_refuted s : consistent s -> ly_quasistatic s = false -> n_layer s <> n_frequency s -> n_layer s <> 1%nat -> n_frequency s <> 1%nat ->
  exists e, sigma_hat_property s = Raise e.
Proof. exact (hat_raises s). Qed.

(** C84: the result for many frequencies and receivers holds, at each position, the result for
    that frequency, the properties at that frequency and that receiver alone *)
Theorem C84_layered_batch mu_0 flt s xyz field r f k : consistent s -> magnetic_field mu_0 flt s xyz field = Ok r ->
  (f < n_frequency s)%nat -> (k < length xyz)%nat ->
  exists r1, magnetic_field mu_0 flt (single s f) [nth k xyz vzero] field = Ok r1 /\ entry r1 0 0 = entry r f k.
Proof. exact (batch_lemma mu_0 flt s xyz field r f k). Qed.

(** C87: an interface between two layers of the same material changes nothing *)
Theorem C87_subdividing_a_layer mu_0 flt s xyz field s1 x s2 m1 m m2 e1 e e2 t1 h1 h2 t2 :
  List.Forall (fun w => 0 < w) (ly_frequency s) ->
  Forall3 conductor (s1 ++ x :: s2) (m1 ++ m :: m2) (e1 ++ e :: e2) ->
  length s1 = length t1 -> length m1 = length t1 -> length e1 = length t1 -> length s2 = (length t2 + 1)%nat ->
  List.Forall (Rle 0) t1 -> List.Forall (Rle 0) t2 -> 0 <= h1 -> 0 <= h2 ->
  magnetic_field mu_0 flt (with_layers s (t1 ++ h1 :: h2 :: t2) (s1 ++ x :: x :: s2) (m1 ++ m :: m :: m2) (e1 ++ e :: e :: e2)) xyz field =
  magnetic_field mu_0 flt (with_layers s (t1 ++ (h1 + h2) :: t2) (s1 ++ x :: s2) (m1 ++ m :: m2) (e1 ++ e :: e2)) xyz field.
Proof. exact (split_lemma mu_0 flt s xyz field s1 x s2 m1 m m2 e1 e e2 t1 h1 h2 t2). Qed.

(** Witnesses: two layers, two frequencies, a 2x2 sigma, receivers at the surface. *)
Definition wit : layered :=
  LY [1; 10] [5] (P2 (A2 2 2 (fun i j => RtoC (1 + INR i + INR j)))) (P1 [RtoC 1; RtoC 1]) (P1 [RtoC 1; RtoC 1]) false (V3 0 0 1) (V3 0 0 1) 1.
Example C65_C66_witness : consistent wit /\ (exists r, magnetic_field 1 (HF [1] [1] [1]) wit [V3 3 4 0; V3 1 0 2] "total" = Ok r) /\
  beside (V3 3 4 0) (ly_location wit).
Proof.
  assert (Co : consistent wit) by (repeat split). split; [assumption|]. split.
  - destruct (consistent_works 1 (HF [1] [1] [1]) wit [V3 3 4 0; V3 1 0 2] "total" Co) as (r & H & _); try discriminate; [|eauto].
    repeat constructor; cbn; lra.
  - left. cbn. lra.
Qed.
Example C66_stale_witness : exists t, new_thickness (Some (V1 [5; 7])) = Ok t /\ length t <> length (ly_thickness wit).
Proof. exists [5; 7]. split; [|discriminate]. unfold new_thickness, new_frequency. cbn. unfold Rltb. destruct (Rlt_dec 5 0); [lra|]. destruct (Rlt_dec 7 0); [lra|]. reflexivity. Qed.
Example C66_construct_witness : exists s, construct 1 1 (V1 [1; 10]) (Some (VScalar 5)) (V1 [RtoC 1; RtoC 2]) (VScalar (RtoC 1)) (VScalar (RtoC 1)) false vzero (V3 0 0 1) 1 = Ok s /\ n_layer s = 2%nat.
Proof.
  eexists. split.
  - unfold construct, new_thickness, new_frequency, new_sigma, new_mu, new_epsilon, new_property, Rltb, Rleb. cbn.
    repeat (match goal with |- context [Rlt_dec ?a ?b] => destruct (Rlt_dec a b); [exfalso; lra|] | |- context [Rle_dec ?a ?b] => destruct (Rle_dec a b); [exfalso; lra|] end; cbn).
    reflexivity.
  - reflexivity.
Qed.
(** [C67_square] shows a wrong value: layer 0 at frequency 1 is reported with the conductivity of layer 1 *)
Example C67_witness : consistent wit /\ n_layer wit = n_frequency wit /\
  consistent (LY [1; 10; 100] [5] (P1 [RtoC 1; RtoC 1]) (P1 [RtoC 1; RtoC 1]) (P1 [RtoC 1; RtoC 1]) false vzero (V3 0 0 1) 1).
Proof. repeat split. Qed.
Example C67_wrong_value : exists s a, consistent s /\ sigma_hat_property s = Ok a /\ a_at a 0 1 <> hat s 0 1.
Proof.
  exists (LY [1; 1] [5] (P1 [RtoC 1; RtoC 2]) (P1 [RtoC 1; RtoC 1]) (P1 [RtoC 1; RtoC 1]) true vzero (V3 0 0 1) 1).
  eexists. split; [repeat split|]. split; [reflexivity|]. cbn. intros H. injection H as H. lra.
Qed.
Example C87_witness : Forall3 conductor ([] ++ RtoC 1 :: [RtoC 2]) ([] ++ RtoC 1 :: [RtoC 1]) ([] ++ RtoC 1 :: [RtoC 1]).
Proof. cbn. unfold conductor; cbn. repeat split; lra. Qed.

(** C99: which values the attributes accept and store; numbers out of range raise ValueError, anything else that does
    not fit TypeError.  [validates ok stored v out] spells this out. *)
Theorem C99_frequency mu_0 eps_0 s v : validates (fun x => 0 <= x) (fun s' => exists l, row_of v l /\ s' = with_frequency s l) v (assign mu_0 eps_0 s (Set_frequency v)).
Proof. exact (set_frequency_lemma mu_0 eps_0 s v). Qed.
Theorem C99_thickness mu_0 eps_0 s v : validates (fun x => 0 <= x) (fun s' => exists l, row_of v l /\ s' = with_thickness s l) v (assign mu_0 eps_0 s (Set_thickness (Some v))).
Proof. exact (set_thickness_lemma mu_0 eps_0 s v). Qed.
(** no thickness at all: a half-space *)
Theorem C99_no_thickness mu_0 eps_0 s : assign mu_0 eps_0 s (Set_thickness None) = Ok (with_thickness s []) /\ n_layer (with_thickness s []) = 1%nat.
Proof. exact (conj eq_refl eq_refl). Qed.
Theorem C99_sigma mu_0 eps_0 s v : validates (physical (fun x => 0 < x)) (fun s' => exists p, array_of (n_layer s) (n_frequency s) v p /\ s' = with_sigma s p) v (assign mu_0 eps_0 s (Set_sigma v)).
Proof. exact (set_sigma_lemma mu_0 eps_0 s v). Qed.
Theorem C99_mu mu_0 eps_0 s v : validates (physical (fun x => mu_0 <= x)) (fun s' => exists p, array_of (n_layer s) (n_frequency s) v p /\ s' = with_mu s p) v (assign mu_0 eps_0 s (Set_mu v)).
Proof. exact (set_mu_lemma mu_0 eps_0 s v). Qed.
Theorem C99_epsilon mu_0 eps_0 s v : validates (physical (fun x => eps_0 <= x)) (fun s' => exists p, array_of (n_layer s) (n_frequency s) v p /\ s' = with_epsilon s p) v (assign mu_0 eps_0 s (Set_epsilon v)).
Proof. exact (set_epsilon_lemma mu_0 eps_0 s v). Qed.
(** so after construction and any history of assignments everything stored is admissible *)
Theorem C99_admissible_after_any_history mu_0 eps_0 fr th sg m e q loc o mom s l :
  construct mu_0 eps_0 fr th sg m e q loc o mom = Ok s -> admissible mu_0 eps_0 (history mu_0 eps_0 s l).
Proof. exact (fun H => history_admissible mu_0 eps_0 l s (construct_admissible mu_0 eps_0 fr th sg m e q loc o mom s H)). Qed.
Example C99_witness : exists s, construct 1 1 (V1 [1; 10]) (Some (VScalar 5)) (V2 2 2 (fun i j => RtoC 1)) (VScalar (RtoC 1)) (V1 [RtoC 1; (2, 1)]) false (V3 0 0 1) (V3 0 0 1) 1 = Ok s /\
  n_layer s = 2%nat /\ ly_mu s = P1 [RtoC 1; RtoC 1] /\
  assign 1 1 s (Set_sigma (V1 [RtoC 3])) = Raise TypeError /\ assign 1 1 s (Set_sigma (V1 [RtoC 3; RtoC (-1)])) = Raise ValueError.
Proof.
  assert (B : forall x y, Rltb x y = (if Rlt_dec x y then true else false)) by reflexivity.
  eexists. split.
  - unfold construct, new_thickness, new_frequency, new_sigma, new_mu, new_epsilon, new_property, entries, Rltb, Rleb. cbn.
    repeat (destruct (Rlt_dec _ _); [lra|]; cbn). repeat (destruct (Rle_dec _ _); [lra|]; cbn). repeat (destruct (Rlt_dec _ _); [lra|]; cbn). reflexivity.
  - split; [reflexivity|]. split; [reflexivity|]. split; cbn; unfold new_sigma, new_property, Rltb, Rleb; cbn;
    repeat (destruct (Rlt_dec _ _); [lra|]; cbn); repeat (destruct (Rle_dec _ _); try lra; cbn); reflexivity.
Qed.
Print Assumptions C65_total_is_secondary_plus_static.
Print Assumptions C65_linear_in_the_dipole.
Print Assumptions C65_rotation.
Print Assumptions C65_horizontal_shift.
Print Assumptions C65_reciprocity.
Print Assumptions C65_receivers_below_are_refused.
Print Assumptions C65_constructed_objects.
Print Assumptions C65_source_below_surface_refuted.
Print Assumptions C66_careful_histories_work.
Print Assumptions C66_new_number_of_layers_refuted.
Print Assumptions C66_new_number_of_frequencies_refuted.
Print Assumptions C66_exactly_when.
Print Assumptions C67_one_layer_one_frequency.
Print Assumptions C67_transposed.
Print Assumptions C67_square.
Print Assumptions C67_shape_refuted.
Print Assumptions C67_raises_refuted.
Print Assumptions C84_layered_batch.
Print Assumptions C87_subdividing_a_layer.
Print Assumptions C99_frequency.
Print Assumptions C99_thickness.
Print Assumptions C99_no_thickness.
Print Assumptions C99_sigma.
Print Assumptions C99_mu.
Print Assumptions C99_epsilon.
Print Assumptions C99_admissible_after_any_history.
