(** Properties C76, C81, C91, C92: the Okada fault model Oksar.
    [dc3d3 alpha B dip al1 al2 aw1 aw2 U1 U2] is the solver on a batch B of surface points
    (in the fault's frame) for a fault al1..al2 along strike, aw1..aw2 along dip, with
    strike slip U1 and dip slip U2; a result [Mat [u; v; w]] is the array with these
    columns.  A batch of one point gives three equal columns. *)
From Coq Require Import Reals List Bool Arith ZArith String Lra.
From Verif Require Import Numpy PyVal Model_Setters Spec_Setters Model_Oksar Spec_Oksar.
From Verif Require Import Proof_Setters6 Proof_Oksar Proof_Oksar3 Proof_Oksar4 Proof_Oksar5 Proof_Oksar6 Proof_Oksar7.
Import ListNotations.
Open Scope string_scope.
Open Scope R_scope.

(** C76: reading V fails after any history, so the grid, the displacements and the plot fail *)
Theorem C76_V_never_readable_refuted :
  forall py o h, created py KOksar o -> wf_history h ->
  reads (cls_of py KOksar) (run_history (cls_of py KOksar) h o) "V" = Raise AttributeError.
Proof. exact C76_V_lemma. Qed.
Theorem C76_grid_displacement_plot_refuted :
  forall py o h, created py KOksar o -> wf_history h ->
  let s := run_history (cls_of py KOksar) h o in
  (forall compute, snd (simulation_grid py compute s) = Raise AttributeError) /\
  (forall compute rest, snd (displacement_vector py compute rest s) = Raise AttributeError) /\
  (forall rest, snd (plot_displacement py rest s) = Raise AttributeError).
Proof.
  exact (fun py o h C W => conj (C76_grid_lemma py o h C W) (conj (C76_displacement_lemma py o h C W) (C76_plot_lemma py o h C W))).
Qed.
(** were V readable, the grid would have the right number of points, and be the documented
    one exactly when U[1] = V[0] *)
Theorem C76_grid_documented_iff :
  forall O U V n0 n1, (2 <= n0)%nat -> (2 <= n1)%nat ->
  List.length (grid O U V n0 n1) = (n0 * n1)%nat /\
  ((forall i j, (i < n0)%nat -> (j < n1)%nat ->
     nth (j * n0 + i) (grid O U V n0 n1) (0, 0) = along O U V (fraction i n0) (fraction j n1)) <-> snd U = fst V).
Proof. exact C76_grid_iff_lemma. Qed.
(** and the displacement would raise for every grid but those of one or three points *)
Theorem C76_displacement_sizes_refuted :
  forall f vec, f_slip f <> 0 -> List.length vec <> 1%nat -> List.length vec <> 3%nat ->
  exists e, displacement f vec = Raise e.
Proof. exact C76_size_lemma. Qed.
(** without slip there would be one zero vector instead of one per point *)
Theorem C76_no_slip_one_vector_refuted :
  forall f vec v, f_slip f = 0 -> displacement f vec = Ok v -> v = Out1 (0, 0, 0).
Proof. exact C76_noslip_lemma. Qed.
(** on grids of one or three points it would return three rows that mix the stations: row c holds component c of the
    solution at the first two stations, turned back as if they were the two horizontal components, and at the third *)
Theorem C76_stations_mixed_refuted :
  forall f vec v sd cd,
  f_slip f <> 0 -> f_beta f + f_mu f <> 0 -> f_beta f + 2 * f_mu f <> 0 -> List.length vec = 1%nat \/ List.length vec = 3%nat ->
  dip_sin_cos (- f_dip f * pl8) sd cd ->
  let a := (f_strike f + 90) * pl8 in
  let r := (f_rake f + 90) * pl8 in
  let st := map (fun P => turned a (fst P - fst (f_center f), snd P - snd (f_center f))) vec in
  let half := f_length f / 2 in
  let top := f_top f / sin (f_dip f * pl8) in
  let bottom := f_bottom f / sin (f_dip f * pl8) in
  nothing_rounded sd cd st (- half) half top bottom ->
  displacement f vec = Ok v ->
  let u i := okada PI2 (f_mu f / (f_beta f + f_mu f)) sd cd (nth (if Nat.eqb (List.length vec) 1 then 0 else i)%nat st (0, 0))
               (- half) half top bottom (- f_slip f * sin r) (f_slip f * cos r) in
  v = OutN (map (fun c : R * R * R -> R => let h := turned (- a) (c (u 0%nat), c (u 1%nat)) in (fst h, snd h, c (u 2%nat))) [fst3; snd3; trd3]).
Proof. exact C76_mixed_lemma. Qed.
Example C76_mixed_witness : exists v,
  f_slip wit_fault <> 0 /\ f_beta wit_fault + f_mu wit_fault <> 0 /\ f_beta wit_fault + 2 * f_mu wit_fault <> 0 /\
  dip_sin_cos (- f_dip wit_fault * pl8) (-1) 0 /\
  nothing_rounded (-1) 0 (map (fun P => turned ((f_strike wit_fault + 90) * pl8) (fst P - fst (f_center wit_fault), snd P - snd (f_center wit_fault))) [(6, 1 / 1000)])
    (- (f_length wit_fault / 2)) (f_length wit_fault / 2) (f_top wit_fault / sin (f_dip wit_fault * pl8)) (f_bottom wit_fault / sin (f_dip wit_fault * pl8)) /\
  displacement wit_fault [(6, 1 / 1000)] = Ok v.
Proof. exact wit_displacement. Qed.
Example C76_witness : forall py n m, to_ints py (PSeq (Ok (mkarr [2%nat] [Fin 1; Fin 1]))) = Ok [n; m] ->
  exists o, created py KOksar o.
Proof. intros py n m H. destruct (oksar_exists py n m H) as (o & C & _). exists o. exact C. Qed.

(** C81 *)
Theorem C81_batch_is_pointwise_when_nothing_is_rounded :
  forall alpha dip al1 al2 aw1 aw2 U1 U2 sd cd,
  dip_sin_cos (dip * pl8) sd cd -> U1 <> 0 \/ U2 <> 0 ->
  forall P Q S x y z, nothing_rounded sd cd [P; Q; S] al1 al2 aw1 aw2 ->
  (dc3d3 alpha [P; Q; S] dip al1 al2 aw1 aw2 U1 U2 = Ok (Mat [x; y; z]) <->
   dc3d3 alpha [P] dip al1 al2 aw1 aw2 U1 U2 = Ok (Mat [x; x; x]) /\
   dc3d3 alpha [Q] dip al1 al2 aw1 aw2 U1 U2 = Ok (Mat [y; y; y]) /\
   dc3d3 alpha [S] dip al1 al2 aw1 aw2 U1 U2 = Ok (Mat [z; z; z])).
Proof. exact C81_pointwise_lemma. Qed.
(** a point near the line of the fault moves up, but not when far points are in the batch *)
Theorem C81_other_points_matter_refuted :
  exists w x y z,
  dc3d3 (2 / 3) [(6, 1 / 1000)] (-90) (-5) 5 1 10 1 0 = Ok (Mat [w; w; w]) /\
  dc3d3 (2 / 3) [(6, 1 / 1000); (100000, 1); (100000, 2)] (-90) (-5) 5 1 10 1 0 = Ok (Mat [x; y; z]) /\
  snd x = 0 /\ 0 < snd w.
Proof. exact C81_refuted_lemma. Qed.
Theorem C81_only_batches_of_one_or_three_refuted :
  forall alpha B dip al1 al2 aw1 aw2 U1 U2, U1 <> 0 \/ U2 <> 0 ->
  List.length B <> 1%nat -> List.length B <> 3%nat ->
  exists e, dc3d3 alpha B dip al1 al2 aw1 aw2 U1 U2 = Raise e.
Proof. exact C81_size_lemma. Qed.
(** a station straight above the end of the fault is refused; with more than one station the error is
    a TypeError from formatting the message *)
Theorem C81_above_the_end_is_refused :
  forall alpha B dip al1 al2 aw1 aw2 U1 U2 sd cd,
  dip_sin_cos (dip * pl8) sd cd -> sd <> 0 -> 0 < aw1 -> nothing_rounded sd cd B al1 al2 aw1 aw2 -> In (al1, 0) B ->
  dc3d3 alpha B dip al1 al2 aw1 aw2 U1 U2 = Raise (if Nat.eqb (List.length B) 1 then OtherError else TypeError).
Proof. exact C81_end_lemma. Qed.
Example C81_end_witness : dip_sin_cos (-90 * pl8) (-1) 0 /\ nothing_rounded (-1) 0 [(6, 0); (100000, 1); (100000, 2)] 6 7 1 10.
Proof. exact (conj dip_90 end_clear). Qed.
Example C81_witness : dip_sin_cos (-90 * pl8) (-1) 0 /\ nothing_rounded (-1) 0 [(6, 0); (100000, 1); (100000, 2)] (-5) 5 1 10.
Proof. exact (conj dip_90 batch_clear). Qed.

(** C91: the solver computes Okada's closed form *)
Theorem C91_solver_is_okada :
  forall alpha dip al1 al2 aw1 aw2 U1 U2 sd cd,
  dip_sin_cos (dip * pl8) sd cd -> U1 <> 0 \/ U2 <> 0 ->
  forall B u, List.length B = 1%nat \/ List.length B = 3%nat -> nothing_rounded sd cd B al1 al2 aw1 aw2 ->
  dc3d3 alpha B dip al1 al2 aw1 aw2 U1 U2 = Ok u ->
  exists cols, u = Mat cols /\ List.length cols = 3%nat /\
  forall i, (i < 3)%nat -> nth_error cols i =
    option_map (fun P => okada PI2 ((1 - alpha) / alpha) sd cd P al1 al2 aw1 aw2 U1 U2)
      (nth_error B (if Nat.eqb (List.length B) 1 then 0 else i)%nat).
Proof. exact C91_okada_lemma. Qed.
(** (1 - alpha) / alpha is Okada's mu / (lambda + mu) *)
Theorem C91_elastic_constants :
  forall lambda mu, lambda + mu <> 0 -> lambda + 2 * mu <> 0 ->
  let alpha := (lambda + mu) / (lambda + 2 * mu) in (1 - alpha) / alpha = mu / (lambda + mu).
Proof. intros lambda mu H1 H2. cbv zeta. field. auto. Qed.
Theorem C91_angle_constants : Rabs (PI2 - 2 * PI) <= 2 / 10 ^ 14 /\ Rabs (pl8 - PI / 180) <= 1 / 10 ^ 15.
Proof. exact C91_constants_lemma. Qed.
(** off the plane of the fault the solver returns *)
Theorem C91_defined_off_the_fault_plane :
  forall alpha dip sd cd P al1 al2 aw1 aw2 U1 U2,
  dip_sin_cos (dip * pl8) sd cd -> U1 <> 0 \/ U2 <> 0 -> nothing_rounded sd cd [P] al1 al2 aw1 aw2 ->
  snd P * sd <> 0 -> sd < 0 -> 0 <= aw1 -> 0 <= aw2 ->
  exists u, dc3d3 alpha [P] dip al1 al2 aw1 aw2 U1 U2 = Ok u.
Proof. exact C91_defined_lemma. Qed.
Example C91_witness : dip_sin_cos (-90 * pl8) (-1) 0 /\ nothing_rounded (-1) 0 [(6, 1 / 1000)] (-5) 5 1 10 /\
  snd (6, 1 / 1000) * -1 <> 0.
Proof. refine (conj dip_90 (conj near_clear _)). cbn [snd]. lra. Qed.

(** C92: superposition and symmetry *)
Theorem C92_adjacent_faults_along_strike :
  forall alpha dip U1 U2 sd cd, dip_sin_cos (dip * pl8) sd cd -> U1 <> 0 \/ U2 <> 0 ->
  forall P al1 al2 al3 aw1 aw2 u v, al1 <= al2 <= al3 ->
  nothing_rounded sd cd [P] al1 al2 aw1 aw2 -> nothing_rounded sd cd [P] al2 al3 aw1 aw2 ->
  dc3d3 alpha [P] dip al1 al2 aw1 aw2 U1 U2 = Ok (Mat [u; u; u]) ->
  dc3d3 alpha [P] dip al2 al3 aw1 aw2 U1 U2 = Ok (Mat [v; v; v]) ->
  let w := let '(x, y, z) := u in let '(x', y', z') := v in (x + x', y + y', z + z') in
  dc3d3 alpha [P] dip al1 al3 aw1 aw2 U1 U2 = Ok (Mat [w; w; w]).
Proof. exact C92_strike_lemma. Qed.
Theorem C92_adjacent_faults_along_dip :
  forall alpha dip U1 U2 sd cd, dip_sin_cos (dip * pl8) sd cd -> U1 <> 0 \/ U2 <> 0 ->
  forall P al1 al2 aw1 aw2 aw3 u v, aw1 <= aw2 <= aw3 ->
  nothing_rounded sd cd [P] al1 al2 aw1 aw2 -> nothing_rounded sd cd [P] al1 al2 aw2 aw3 ->
  dc3d3 alpha [P] dip al1 al2 aw1 aw2 U1 U2 = Ok (Mat [u; u; u]) ->
  dc3d3 alpha [P] dip al1 al2 aw2 aw3 U1 U2 = Ok (Mat [v; v; v]) ->
  let w := let '(x, y, z) := u in let '(x', y', z') := v in (x + x', y + y', z + z') in
  dc3d3 alpha [P] dip al1 al2 aw1 aw3 U1 U2 = Ok (Mat [w; w; w]).
Proof. exact C92_dip_lemma. Qed.
Theorem C92_linear_in_the_slip :
  forall alpha dip sd cd P al1 al2 aw1 aw2 a b U1 U2 W1 W2 u v,
  dip_sin_cos (dip * pl8) sd cd -> U1 <> 0 \/ U2 <> 0 -> W1 <> 0 \/ W2 <> 0 ->
  a * U1 + b * W1 <> 0 \/ a * U2 + b * W2 <> 0 ->
  nothing_rounded sd cd [P] al1 al2 aw1 aw2 ->
  dc3d3 alpha [P] dip al1 al2 aw1 aw2 U1 U2 = Ok (Mat [u; u; u]) ->
  dc3d3 alpha [P] dip al1 al2 aw1 aw2 W1 W2 = Ok (Mat [v; v; v]) ->
  let w := let '(x, y, z) := u in let '(x', y', z') := v in (a * x + b * x', a * y + b * y', a * z + b * z') in
  dc3d3 alpha [P] dip al1 al2 aw1 aw2 (a * U1 + b * W1) (a * U2 + b * W2) = Ok (Mat [w; w; w]).
Proof.
  intros alpha dip sd cd P al1 al2 aw1 aw2 a b U1 U2 W1 W2 [[u1 u2] u3] [[v1 v2] v3]. exact (C92_slip_lemma alpha dip sd cd P al1 al2 aw1 aw2 a b U1 U2 W1 W2 (u1, u2, u3) (v1, v2, v3)).
Qed.
(** a fault centred at X = 0: the mirror image of a point sees the mirror image of the
    displacement caused by the opposite dip slip *)
Theorem C92_mirror_image :
  forall alpha dip sd cd X Y a aw1 aw2 U1 U2 u v,
  dip_sin_cos (dip * pl8) sd cd -> U1 <> 0 \/ U2 <> 0 -> nothing_rounded sd cd [(X, Y)] (- a) a aw1 aw2 ->
  dc3d3 alpha [(X, Y)] dip (- a) a aw1 aw2 U1 (- U2) = Ok (Mat [u; u; u]) ->
  dc3d3 alpha [(- X, Y)] dip (- a) a aw1 aw2 U1 U2 = Ok v ->
  let w := (let '(x, y, z) := u in (x, - y, - z)) in v = Mat [w; w; w].
Proof. exact C92_mirror_lemma. Qed.
Example C92_witness : nothing_rounded (-1) 0 [(6, 1 / 1000)] (-5) 5 1 10.
Proof. exact near_clear. Qed.
Print Assumptions C76_V_never_readable_refuted.
Print Assumptions C76_grid_displacement_plot_refuted.
Print Assumptions C76_grid_documented_iff.
Print Assumptions C76_displacement_sizes_refuted.
Print Assumptions C76_no_slip_one_vector_refuted.
Print Assumptions C81_batch_is_pointwise_when_nothing_is_rounded.
Print Assumptions C81_other_points_matter_refuted.
Print Assumptions C81_only_batches_of_one_or_three_refuted.
Print Assumptions C91_solver_is_okada.
Print Assumptions C91_elastic_constants.
Print Assumptions C91_angle_constants.
Print Assumptions C91_defined_off_the_fault_plane.
Print Assumptions C92_adjacent_faults_along_strike.
Print Assumptions C92_adjacent_faults_along_dip.
Print Assumptions C92_linear_in_the_slip.
Print Assumptions C92_mirror_image.
Print Assumptions C76_stations_mixed_refuted.
Print Assumptions C81_above_the_end_is_refused.
