(** Properties C14, C26, C31-C37, C77, C80, C86 and the bookkeeping part of C50: what the
    attributes of the objects read after any history of assignments.
    [created py k o]: o is an object of class k whose constructor succeeded.
    [run_history c h o]: the object after the assignments h, rejected ones included.
    [reads c o a]: what o.a gives.  [py] stands for Python's own conversions. *)
From Coq Require Import Reals List Bool Arith ZArith String.
From Verif Require Import Numpy PyVal Model_Setters Spec_Setters Model_Alias Spec_Alias.
From Verif Require Import Proof_Setters Proof_Setters2 Proof_Setters3 Proof_Setters4 Proof_Setters5 Proof_Setters6 Proof_Setters7 Proof_Alias.
Import ListNotations.
Open Scope string_scope.
Open Scope R_scope.

(** C14 *)
Theorem C14_prism_accepted_iff_ordered :
  forall py v1 v2 x1 y1 z1 x2 y2 z2,
  converts_to py v1 x1 y1 z1 -> converts_to py v2 x2 y2 z2 ->
  (snd (init_prism py "" v1 v2 empty_obj) = Ok tt <-> x1 < x2 /\ y1 < y2 /\ z1 < z2).
Proof. exact C14_iff_lemma. Qed.
Theorem C14_prism_rejects_non_vectors :
  forall py v1 v2,
  (forall a, asarray py v1 = Ok a -> ashape (squeeze a) <> [3%nat]) \/
  (forall a, asarray py v2 = Ok a -> ashape (squeeze a) <> [3%nat]) ->
  exists e, snd (init_prism py "" v1 v2 empty_obj) = Raise e.
Proof. exact C14_reject_lemma. Qed.
Theorem C14_new_prism_has_positive_volume :
  forall py k o x1 y1 z1 x2 y2 z2,
  created py k o -> In k prism_kinds ->
  reads (cls_of py k) o "min_location" = Ok (AArr (fin3 x1 y1 z1)) ->
  reads (cls_of py k) o "max_location" = Ok (AArr (fin3 x2 y2 z2)) ->
  x1 < x2 /\ y1 < y2 /\ z1 < z2 /\
  exists vol, reads (cls_of py k) o "volume" = Ok (AFlt (Fin vol)) /\ 0 < vol /\
    vol = (x2 - x1) * (y2 - y1) * (z2 - z1).
Proof. exact C14_volume_lemma. Qed.
(** the order is not kept by later assignments *)
Theorem C14_order_after_assignment_refuted :
  forall py, exists o, created py KBasePrism o /\
  snd (setattr (BasePrism py) "" "max_location" (pt (-1) 1 1) o) = Ok tt /\
  let s := fst (setattr (BasePrism py) "" "max_location" (pt (-1) 1 1) o) in
  reads (BasePrism py) s "min_location" = Ok (AArr (fin3 0 0 0)) /\
  reads (BasePrism py) s "max_location" = Ok (AArr (fin3 (-1) 1 1)) /\
  exists v, reads (BasePrism py) s "volume" = Ok (AFlt (Fin v)) /\ v < 0.
Proof. exact prism_flips. Qed.
(** nan passes the constructor's check *)
Theorem C14_nan_corner_refuted :
  forall py, exists o, created py KBasePrism o /\
  reads (BasePrism py) o "min_location" = Ok (AArr (fin3 0 0 0)) /\
  reads (BasePrism py) o "max_location" = Ok (AArr (vec3 NaN (Fin 1) (Fin 1))).
Proof. exact prism_nan. Qed.

(** C26 *)
Theorem C26_mass_always_reads_density_times_volume :
  forall py o h, created py KSphere o -> wf_history h ->
  exists r q m,
    reads (cls_of py KSphere) (run_history (cls_of py KSphere) h o) "radius" = Ok (AFlt r) /\
    nonneg_or_nan r /\
    reads (cls_of py KSphere) (run_history (cls_of py KSphere) h o) "rho" = Ok (AFlt q) /\
    reads (cls_of py KSphere) (run_history (cls_of py KSphere) h o) "mass" = Ok (AFlt m) /\
    (forall R rho, r = Fin R -> q = Fin rho -> m = Fin (4 / 3 * PI * R ^ 3 * rho)).
Proof. exact C26_read_lemma. Qed.
Theorem C26_assigned_mass_reads_back :
  forall py o v m r,
  reads (cls_of py KSphere) o "radius" = Ok (AFlt (Fin r)) -> r <> 0 -> float_ py v = Ok (Fin m) ->
  snd (setattr (cls_of py KSphere) "" "mass" v o) = Ok tt /\
  reads (cls_of py KSphere) (fst (setattr (cls_of py KSphere) "" "mass" v o)) "mass" = Ok (AFlt (Fin m)) /\
  reads (cls_of py KSphere) (fst (setattr (cls_of py KSphere) "" "mass" v o)) "radius" = Ok (AFlt (Fin r)) /\
  reads (cls_of py KSphere) (fst (setattr (cls_of py KSphere) "" "mass" v o)) "rho"
    = Ok (AFlt (Fin (m / (4 / 3 * PI * r ^ 3)))).
Proof. exact C26_assign_mass_lemma. Qed.
Theorem C26_radius_keeps_density :
  forall py o v,
  let o' := fst (setattr (cls_of py KSphere) "" "radius" v o) in
  reads (cls_of py KSphere) o' "rho" = reads (cls_of py KSphere) o "rho" /\
  reads (cls_of py KSphere) o' "location" = reads (cls_of py KSphere) o "location".
Proof. exact C26_assign_radius_lemma. Qed.
Theorem C26_positive_radius_constructs :
  forall py vr vq vl vm r q l1 l2 l3 m,
  float_ py vr = Ok (Fin r) -> 0 < r -> float_ py vq = Ok (Fin q) -> float_ py vm = Ok (Fin m) ->
  converts_to py (default_loc vl origin) l1 l2 l3 ->
  exists o, init_sphere py "" vr vq vl vm empty_obj = (o, Ok tt) /\
    reads (cls_of py KSphere) o "radius" = Ok (AFlt (Fin r)) /\
    reads (cls_of py KSphere) o "rho" = Ok (AFlt (Fin q)) /\
    reads (cls_of py KSphere) o "mass" = Ok (AFlt (Fin (4 / 3 * PI * r ^ 3 * q))) /\
    reads (cls_of py KSphere) o "location" = Ok (AArr (fin3 l1 l2 l3)).
Proof. exact C26_construct_lemma. Qed.
(** radius 0 is accepted by the setter and refused by the constructor *)
Theorem C26_zero_radius_refuted :
  forall py vr vq vl vm m,
  float_ py vr = Ok (Fin 0) -> float_ py vm = Ok (Fin m) ->
  snd (init_sphere py "" vr vq vl vm empty_obj) = Raise ZeroDivisionError /\
  forall o, snd (setattr (cls_of py KSphere) "" "radius" vr o) = Ok tt.
Proof. exact C26_zero_lemma. Qed.
Example C26_witness : forall py, exists o, created py KSphere o /\ reads (Sphere py) o "radius" = Ok (AFlt (Fin 2)).
Proof. exact sphere_exists. Qed.

(** C31 *)
Theorem C31_properties_stay_valid :
  forall py k o h, created py k o -> In k em_kinds -> wf_history h ->
  exists s m e,
    reads (cls_of py k) (run_history (cls_of py k) h o) "sigma" = Ok (AFlt s) /\ positive_or_nan s /\
    reads (cls_of py k) (run_history (cls_of py k) h o) "mu" = Ok (AFlt m) /\ positive_or_nan m /\
    reads (cls_of py k) (run_history (cls_of py k) h o) "epsilon" = Ok (AFlt e) /\ nonneg_or_nan e.
Proof. exact C31_lemma. Qed.
Example C31_witness : forall py, exists o, created py KBaseEM o /\ reads (BaseEM py) o "sigma" = Ok (AFlt (Fin 2)).
Proof. exact em_exists. Qed.

(** C32 *)
Theorem C32_rejected_assignment_changes_nothing :
  forall py k a v o, facade k = false ->
  forall e, snd (setattr (cls_of py k) "" a v o) = Raise e ->
  fst (setattr (cls_of py k) "" a v o) = o.
Proof. exact atomic_simple. Qed.
(** the two half-space electrodes are the exception: after a rejected assignment the
    electrode and the sources it owns disagree *)
Theorem C32_half_space_electrode_refuted :
  forall py, exists o, created py KPointCurrentHalfSpace o /\
  reads (PointCurrentHalfSpace py) o "rho" = Ok (AFlt (Fin 1)) /\
  reads (PointCurrentHalfSpace py) o "location" = Ok (AArr origin) /\
  (exists s, setattr (PointCurrentHalfSpace py) "" "rho" (PNum PInf) o = (s, Raise ValueError) /\
     reads (PointCurrentHalfSpace py) s "rho" = Ok (AFlt PInf) /\
     snd (getattr (PointCurrentWholeSpace py) "_primary." "rho" s) = Ok (AFlt (Fin 1))) /\
  (exists s, setattr (PointCurrentHalfSpace py) "" "location" (PArr (mkarr [3%nat; 1%nat] [Fin 0; Fin 0; Fin (-1)])) o = (s, Raise ValueError) /\
     reads (PointCurrentHalfSpace py) s "location" = Ok (AArr (mkarr [3%nat; 1%nat] [Fin 0; Fin 0; Fin (-1)])) /\
     snd (getattr (PointCurrentWholeSpace py) "_primary." "location" s) = Ok (AArr origin)).
Proof. exact electrode_exists. Qed.
Theorem C32_dipole_half_space_refuted :
  forall py, exists o, created py KDipoleHalfSpace o /\
  reads (DipoleHalfSpace py) o "rho" = Ok (AFlt (Fin 1)) /\
  (exists s, setattr (DipoleHalfSpace py) "" "rho" (PNum PInf) o = (s, Raise ValueError) /\
     reads (DipoleHalfSpace py) s "rho" = Ok (AFlt PInf)).
Proof. exact dipole_electrode_exists. Qed.
Example C32_witness : forall py o, facade KBaseEM = false /\
  snd (setattr (cls_of py KBaseEM) "" "sigma" (PSeq (Raise ValueError)) o) = Raise TypeError.
Proof. split; reflexivity. Qed.

(** C33 *)
Theorem C33_rho_reads_reciprocal :
  forall py k o h, created py k o -> In k em_kinds -> wf_history h ->
  exists s r,
    reads (cls_of py k) (run_history (cls_of py k) h o) "sigma" = Ok (AFlt s) /\
    reads (cls_of py k) (run_history (cls_of py k) h o) "rho" = Ok (AFlt r) /\ reciprocal s r.
Proof. exact C33_lemma. Qed.
Theorem C33_assigning_rho :
  forall py k o v r, In k em_kinds -> float_ py v = Ok (Fin r) -> 0 < r ->
  snd (setattr (cls_of py k) "" "rho" v o) = Ok tt /\
  reads (cls_of py k) (fst (setattr (cls_of py k) "" "rho" v o)) "sigma" = Ok (AFlt (Fin (1 / r))) /\
  reads (cls_of py k) (fst (setattr (cls_of py k) "" "rho" v o)) "rho" = Ok (AFlt (Fin r)).
Proof. exact C33_assign_lemma. Qed.
Theorem C33_bad_rho_rejected :
  forall py k o v x, In k em_kinds -> float_ py v = Ok x ->
  (x = Fin 0 -> setattr (cls_of py k) "" "rho" v o = (o, Raise ZeroDivisionError)) /\
  ((exists r, x = Fin r /\ r < 0) \/ x = PInf \/ x = NInf ->
     setattr (cls_of py k) "" "rho" v o = (o, Raise ValueError)).
Proof. exact C33_reject_lemma. Qed.

(** C34 *)
Theorem C34_orientation_from_letter :
  forall py k o s, In k dipole_kinds ->
  match axis_of s with
  | Some a => snd (setattr (cls_of py k) "" "orientation" (PStr s) o) = Ok tt /\
      reads (cls_of py k) (fst (setattr (cls_of py k) "" "orientation" (PStr s) o)) "orientation" = Ok (AArr a)
  | None => setattr (cls_of py k) "" "orientation" (PStr s) o = (o, Raise ValueError)
  end.
Proof. exact C34_string_lemma. Qed.
Theorem C34_orientation_from_vector :
  forall py k o v a x y z, In k dipole_kinds -> is_str v = None ->
  asarray py v = Ok a -> squeeze a = vec3 (Fin x) (Fin y) (Fin z) -> (x <> 0 \/ y <> 0 \/ z <> 0) ->
  snd (setattr (cls_of py k) "" "orientation" v o) = Ok tt /\
  exists u1 u2 u3 n, 0 < n /\
    reads (cls_of py k) (fst (setattr (cls_of py k) "" "orientation" v o)) "orientation"
      = Ok (AArr (vec3 (Fin u1) (Fin u2) (Fin u3))) /\
    u1 * u1 + u2 * u2 + u3 * u3 = 1 /\ x = n * u1 /\ y = n * u2 /\ z = n * u3.
Proof. exact C34_vector_lemma. Qed.
(** plane waves accept any other string and store it *)
Theorem C34_plane_wave_string_refuted :
  forall py o,
  snd (setattr (HarmonicPlaneWave py) "" "orientation" (PStr "Z") o) = Ok tt /\
  reads (HarmonicPlaneWave py) (fst (setattr (HarmonicPlaneWave py) "" "orientation" (PStr "Z") o)) "orientation" = Ok (AStr "Z").
Proof. exact plane_wave_string. Qed.
Example C34_witness : forall py, exists o, created py KMagneticDipoleWholeSpace o /\
  reads (MagneticDipoleWholeSpace py) o "orientation" = Ok (AArr (fin3 0 0 1)).
Proof. exact dipole_exists. Qed.
Example C34_plane_wave_witness : forall py, exists o, created py KHarmonicPlaneWave o.
Proof. exact plane_wave_exists. Qed.

(** C35.  The caller's arrays are the buffers below [n]. *)
Theorem C35_safe_when_not_a_kept_float_array :
  forall n p, Forall (callers n) p -> Forall no_float_array_kept p ->
  forall s, (n <= next s)%nat -> (forall k l, attr s k = Some l -> (n <= l < next s)%nat) ->
  (forall l, (l < n)%nat -> heap (run p s) l = only_caller_writes p (heap s) l) /\
  (forall k, reads_attr (run p s) k = last_assigned p k (heap s) (reads_attr s k)).
Proof. exact (fun n p H1 H2 s H3 H4 => safe_run n p H1 H2 s (conj H3 H4)). Qed.
Theorem C35_copying_setters_never_alias :
  forall k l d s, (l < next s)%nat ->
  reads_attr (caller_writes l d (assign Copies k (CFloatArr l) s)) k = Some (heap s l).
Proof. exact copies_alias. Qed.
(** the other setters do: whatever the caller writes later is what the object reads *)
Theorem C35_caller_writes_change_the_object_refuted :
  forall m k l d s, m <> Copies ->
  reads_attr (caller_writes l d (assign m k (CFloatArr l) s)) k = Some d.
Proof. exact keeps_alias. Qed.
Theorem C35_orientation_changes_the_callers_array_refuted :
  exists s l, (l < next s)%nat /\ heap s l = [3; 0; 4] /\
  heap (assign Normalises "orientation" (CFloatArr l) s) l = [3 / 5; 0; 4 / 5].
Proof. exact orientation_mutates. Qed.
Theorem C35_same_array_twice_refuted :
  exists s l, heap s l = [3; 0; 4] /\
  reads_attr (assign Normalises "orientation" (CFloatArr l) (assign Keeps "location" (CFloatArr l) s)) "location"
    = Some [3 / 5; 0; 4 / 5].
Proof. exact same_array. Qed.
Theorem C35_default_location_is_shared_refuted :
  forall dflt d k1 k2 s, k1 <> k2 ->
  let s2 := new_dipole_default_location k2 dflt (new_dipole_default_location k1 dflt s) in
  forall l, attr s2 k1 = Some l -> reads_attr (caller_writes l d s2) k2 = Some d.
Proof. exact shared_default. Qed.
Theorem C35_point_location_writes_the_callers_nodes_refuted :
  forall l v s, List.length (heap s l) = 3%nat -> List.length v = 3%nat ->
  heap (assign_point_location v (assign Keeps "nodes" (CFloatArr l) s)) l = v.
Proof. exact point_location_writes_nodes. Qed.
Example C35_witness :
  let p := [Assign Keeps "location" (CConverted [1; 2; 3]); Write 0 [7]; Assign Copies "primary_field" (CFloatArr 0); Write 0 [8]] in
  Forall (callers 1) p /\ Forall no_float_array_kept p /\ (1 <= next s0)%nat /\
  last_assigned p "primary_field" (heap s0) None = Some [7].
Proof. repeat split; repeat constructor. Qed.

(** C36 *)
Theorem C36_vectors_keep_three_entries :
  forall py k a o h, vector_attribute k a -> created py k o -> wf_history h ->
  exists x y z, reads (cls_of py k) (run_history (cls_of py k) h o) a = Ok (AArr (vec3 x y z)).
Proof. exact C36_spec_lemma. Qed.
(** the spheres of em.static check only the length of the first axis *)
Theorem C36_sphere_location_refuted :
  forall py, exists o, created py KElectrostaticSphere o /\
  snd (setattr (ElectrostaticSphere py) "" "location" (PArr grid32) o) = Ok tt /\
  reads (ElectrostaticSphere py) (fst (setattr (ElectrostaticSphere py) "" "location" (PArr grid32) o)) "location" = Ok (AArr grid32).
Proof. exact es_sphere_wide. Qed.
Example C36_witness : vector_attribute KSphere "location" /\
  forall py, exists o, created py KSphere o /\ reads (Sphere py) o "radius" = Ok (AFlt (Fin 2)).
Proof. split; [right; left; simpl; auto|exact sphere_exists]. Qed.

(** C37 *)
Theorem C37_nodes_are_n_by_3 :
  forall py k o h, created py k o -> In k line_kinds -> wf_history h ->
  exists n data, List.length data = (n * 3)%nat /\
    reads (cls_of py k) (run_history (cls_of py k) h o) "nodes" = Ok (AArr (mkarr [n; 3%nat] data)) /\
    reads (cls_of py k) (run_history (cls_of py k) h o) "n_segments" = Ok (AInt (Z.of_nat n - 1)).
Proof. exact C37_lemma. Qed.
Theorem C37_single_point_is_one_node :
  forall py k o v a x y z, In k line_kinds -> asarray py v = Ok a -> a = vec3 x y z ->
  snd (setattr (cls_of py k) "" "nodes" v o) = Ok tt /\
  reads (cls_of py k) (fst (setattr (cls_of py k) "" "nodes" v o)) "nodes"
    = Ok (AArr (mkarr [1%nat; 3%nat] [x; y; z])) /\
  reads (cls_of py k) (fst (setattr (cls_of py k) "" "nodes" v o)) "n_segments" = Ok (AInt 0).
Proof. exact C37_single_lemma. Qed.
Theorem C37_accepted_shapes :
  forall py k o v, In k line_kinds ->
  (snd (setattr (cls_of py k) "" "nodes" v o) = Ok tt <->
   exists a, asarray py v = Ok a /\ (ashape a = [3%nat] \/ exists n, ashape a = [n; 3%nat])).
Proof. exact C37_accept_lemma. Qed.
(** an empty node list is accepted; a point electrode then has no location *)
Theorem C37_empty_nodes_refuted :
  forall py, exists o, created py KPointCurrentWholeSpace o /\
  snd (setattr (PointCurrentWholeSpace py) "" "nodes" (PArr (mkarr [0%nat; 3%nat] [])) o) = Ok tt /\
  reads (PointCurrentWholeSpace py) (fst (setattr (PointCurrentWholeSpace py) "" "nodes" (PArr (mkarr [0%nat; 3%nat] [])) o)) "location"
    = Raise IndexError /\
  reads (PointCurrentWholeSpace py) (fst (setattr (PointCurrentWholeSpace py) "" "nodes" (PArr (mkarr [0%nat; 3%nat] [])) o)) "n_segments"
    = Ok (AInt (-1)).
Proof. exact no_nodes. Qed.
Example C37_witness : forall py, exists o, created py KLineCurrentWholeSpace o /\
  reads (LineCurrentWholeSpace py) o "n_segments" = Ok (AInt 1).
Proof. exact line_exists. Qed.

(** C86 *)
Theorem C86_frequencies_stay_valid :
  forall py k o h, created py k o -> In k fdem_kinds -> wf_history h ->
  exists a, reads (cls_of py k) (run_history (cls_of py k) h o) "frequency" = Ok (AArr a) /\
    Forall nonneg_or_nan (adata a) /\ (ndim a <= 1)%nat.
Proof. exact C86_freq_lemma. Qed.
Theorem C86_times_stay_valid :
  forall py k o h, created py k o -> In k tdem_kinds -> wf_history h ->
  exists a, reads (cls_of py k) (run_history (cls_of py k) h o) "time" = Ok (AArr a) /\
    Forall nonneg_or_nan (adata a) /\ (ndim a <= 1)%nat.
Proof. exact C86_time_lemma. Qed.
Theorem C86_valid_samples_read_back :
  forall py v a o, asarray py v = Ok a -> (forall x, In x (adata a) -> nonneg_or_nan x) -> (ndim a <= 1)%nat ->
  (forall k, In k fdem_kinds -> snd (setattr (cls_of py k) "" "frequency" v o) = Ok tt /\
     reads (cls_of py k) (fst (setattr (cls_of py k) "" "frequency" v o)) "frequency" = Ok (AArr a)) /\
  (forall k, In k tdem_kinds -> snd (setattr (cls_of py k) "" "time" v o) = Ok tt /\
     reads (cls_of py k) (fst (setattr (cls_of py k) "" "time" v o)) "time" = Ok (AArr a)).
Proof. exact C86_assign_lemma. Qed.
Theorem C86_negative_samples_rejected :
  forall py v a o, asarray py v = Ok a -> (exists r, In (Fin r) (adata a) /\ r < 0) ->
  (forall k, In k fdem_kinds -> setattr (cls_of py k) "" "frequency" v o = (o, Raise ValueError)) /\
  (forall k, In k tdem_kinds -> setattr (cls_of py k) "" "time" v o = (o, Raise ValueError)).
Proof. exact C86_reject_lemma. Qed.
(** the message says "greater than 0", but 0 is accepted *)
Theorem C86_zero_rejected_refuted :
  forall py o, snd (setattr (cls_of py KBaseFDEM) "" "frequency" (PArr (mkarr [1%nat] [Fin 0])) o) = Ok tt /\
    snd (setattr (cls_of py KBaseTDEM) "" "time" (PArr (mkarr [1%nat] [Fin 0])) o) = Ok tt.
Proof. exact C86_zero_lemma. Qed.
Example C86_negative_witness : forall py, exists v a, asarray py v = Ok a /\ (exists r, In (Fin r) (adata a) /\ r < 0).
Proof.
  intros py. exists (PArr (mkarr [2%nat] [Fin 1; Fin (-1)])), (mkarr [2%nat] [Fin 1; Fin (-1)]).
  split; [reflexivity|]. exists (-1). split; [right; left; reflexivity|]. now apply Ropp_lt_gt_0_contravar, Rlt_gt, Rlt_0_1.
Qed.

(** C50, bookkeeping: [hs_value_ok] excludes rho = inf and locations with two or more
    axes, the two defects of C32_half_space_electrode_refuted *)
Theorem C50_electrode_sources_in_sync :
  forall py o h, created py KPointCurrentHalfSpace o -> wf_history h ->
  Forall (fun q => hs_value_ok py (fst q) (snd q)) h ->
  exists c r x y z, electrode_in_sync (PointCurrentHalfSpace py) (PointCurrentWholeSpace py) ""
     (run_history (PointCurrentHalfSpace py) h o) c r x y z.
Proof. exact C50_sync_reads. Qed.
Theorem C50_dipole_sources_in_sync :
  forall py o h, created py KDipoleHalfSpace o -> wf_history h ->
  Forall (fun q => hs_value_ok py (fst q) (snd q)) h ->
  let s := run_history (DipoleHalfSpace py) h o in
  exists c r xa ya za xb yb zb,
    reads (DipoleHalfSpace py) s "current" = Ok (AFlt c) /\ reads (DipoleHalfSpace py) s "rho" = Ok (AFlt r) /\
    reads (DipoleHalfSpace py) s "location_a" = Ok (AArr (vec3 xa ya za)) /\
    reads (DipoleHalfSpace py) s "location_b" = Ok (AArr (vec3 xb yb zb)) /\
    electrode_in_sync (PointCurrentHalfSpace py) (PointCurrentWholeSpace py) "_a." s c r xa ya za /\
    electrode_in_sync (PointCurrentHalfSpace py) (PointCurrentWholeSpace py) "_b." s c r xb yb zb.
Proof. exact C50_dipole_sync_reads. Qed.
Example C50_sync_witness : forall py, 
  Forall (fun q => hs_value_ok py (fst q) (snd q))
    [("rho", PNum (Fin 5)); ("location", pt 1 2 (-3)); ("rho", PNum (Fin (-1)))].
Proof. exact hs_history_ok. Qed.

(** C77 *)
Theorem C77_metadata_reads_back :
  forall py a kd h o, In (a, kd) metadata -> a <> "local_rigidity" -> a <> "event_date" ->
  reads (cls_of py KEarthquakeInterferogram) (run_history (cls_of py KEarthquakeInterferogram) h o) a =
  last_value py a kd h (reads (cls_of py KEarthquakeInterferogram) o a).
Proof. exact (fun py a kd h o H => C77_lemma py a kd h o (meta_kind_In a kd H)). Qed.
(** the two attributes left out: one can never be read, the other reads processed_date *)
Theorem C77_local_rigidity_refuted :
  forall py o h, created py KEarthquakeInterferogram o ->
  reads (cls_of py KEarthquakeInterferogram) (run_history (cls_of py KEarthquakeInterferogram) h o) "local_rigidity"
   = Raise AttributeError.
Proof. exact C77_local_rigidity_lemma. Qed.
Theorem C77_event_date_refuted :
  forall py o d, 
  snd (setattr (cls_of py KEarthquakeInterferogram) "" "event_date" (PDate d) o) = Ok tt /\
  reads (cls_of py KEarthquakeInterferogram) (fst (setattr (cls_of py KEarthquakeInterferogram) "" "event_date" (PDate d) o)) "event_date"
  = reads (cls_of py KEarthquakeInterferogram) o "processed_date".
Proof. exact C77_event_date_lemma. Qed.
Example C77_witness : In ("title", CStr) metadata /\ In ("ref_incidence", CFloat) metadata /\
  forall py, last_value py "scaling" CFloat [("scaling", PNum (Fin 2)); ("scaling", PNone)] (Raise AttributeError) = Ok (AFlt (Fin 2)).
Proof. repeat split; simpl; tauto. Qed.

(** C80 *)
Theorem C80_parameters_in_range :
  forall py o h, created py KOksar o -> wf_history h ->
  let s := run_history (cls_of py KOksar) h o in
  exists top bottom strike dip rake slip length,
    reads (cls_of py KOksar) s "depth_top" = Ok (AFlt top) /\ nonneg_or_nan top /\
    reads (cls_of py KOksar) s "depth_bottom" = Ok (AFlt bottom) /\
    reads (cls_of py KOksar) s "strike" = Ok (AFlt strike) /\ within_or_nan 0 360 strike /\
    reads (cls_of py KOksar) s "dip" = Ok (AFlt dip) /\ within_or_nan 0 90 dip /\
    reads (cls_of py KOksar) s "rake" = Ok (AFlt rake) /\ within_or_nan (-180) 180 rake /\
    reads (cls_of py KOksar) s "slip" = Ok (AFlt slip) /\ nonneg_or_nan slip /\
    reads (cls_of py KOksar) s "length" = Ok (AFlt length) /\ nonneg_or_nan length.
Proof. exact C80_ranges_lemma. Qed.
Theorem C80_depths_ordered_while_top_is_not_reassigned :
  forall py o h, created py KOksar o -> wf_history h -> not_assigned "depth_top" h ->
  let s := run_history (cls_of py KOksar) h o in
  exists top bottom,
    reads (cls_of py KOksar) s "depth_top" = Ok (AFlt top) /\
    reads (cls_of py KOksar) s "depth_bottom" = Ok (AFlt bottom) /\
    (ordered_or_nan top bottom).
Proof. exact C80_order_lemma. Qed.
(** reassigning depth_top can put it below depth_bottom *)
Theorem C80_depth_order_refuted :
  forall py n m, to_ints py (PSeq (Ok (mkarr [2%nat] [Fin 1; Fin 1]))) = Ok [n; m] -> exists o, created py KOksar o /\
  reads (Oksar py) o "depth_bottom" = Ok (AFlt (Fin 5)) /\
  snd (setattr (Oksar py) "" "depth_top" (PNum (Fin 6)) o) = Ok tt /\
  let s := fst (setattr (Oksar py) "" "depth_top" (PNum (Fin 6)) o) in
  reads (Oksar py) s "depth_top" = Ok (AFlt (Fin 6)) /\ reads (Oksar py) s "depth_bottom" = Ok (AFlt (Fin 5)).
Proof. exact oksar_exists. Qed.

Print Assumptions C14_prism_accepted_iff_ordered.
Print Assumptions C14_prism_rejects_non_vectors.
Print Assumptions C14_new_prism_has_positive_volume.
Print Assumptions C14_order_after_assignment_refuted.
Print Assumptions C14_nan_corner_refuted.
Print Assumptions C26_mass_always_reads_density_times_volume.
Print Assumptions C26_assigned_mass_reads_back.
Print Assumptions C26_radius_keeps_density.
Print Assumptions C26_positive_radius_constructs.
Print Assumptions C26_zero_radius_refuted.
Print Assumptions C31_properties_stay_valid.
Print Assumptions C32_rejected_assignment_changes_nothing.
Print Assumptions C32_half_space_electrode_refuted.
Print Assumptions C32_dipole_half_space_refuted.
Print Assumptions C33_rho_reads_reciprocal.
Print Assumptions C33_assigning_rho.
Print Assumptions C33_bad_rho_rejected.
Print Assumptions C34_orientation_from_letter.
Print Assumptions C34_orientation_from_vector.
Print Assumptions C34_plane_wave_string_refuted.
Print Assumptions C35_safe_when_not_a_kept_float_array.
Print Assumptions C35_copying_setters_never_alias.
Print Assumptions C35_caller_writes_change_the_object_refuted.
Print Assumptions C35_orientation_changes_the_callers_array_refuted.
Print Assumptions C35_same_array_twice_refuted.
Print Assumptions C35_default_location_is_shared_refuted.
Print Assumptions C35_point_location_writes_the_callers_nodes_refuted.
Print Assumptions C36_vectors_keep_three_entries.
Print Assumptions C36_sphere_location_refuted.
Print Assumptions C37_nodes_are_n_by_3.
Print Assumptions C37_single_point_is_one_node.
Print Assumptions C37_accepted_shapes.
Print Assumptions C37_empty_nodes_refuted.
Print Assumptions C50_electrode_sources_in_sync.
Print Assumptions C50_dipole_sources_in_sync.
Print Assumptions C77_metadata_reads_back.
Print Assumptions C77_local_rigidity_refuted.
Print Assumptions C77_event_date_refuted.
Print Assumptions C80_parameters_in_range.
Print Assumptions C80_depths_ordered_while_top_is_not_reassigned.
Print Assumptions C80_depth_order_refuted.
Print Assumptions C86_frequencies_stay_valid.
Print Assumptions C86_times_stay_valid.
Print Assumptions C86_valid_samples_read_back.
Print Assumptions C86_negative_samples_rejected.
Print Assumptions C86_zero_rejected_refuted.
