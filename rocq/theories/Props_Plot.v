(** The plotting properties of /verif/properties.jsonl. *)
From Coq Require Import String Reals List Arith Lia Lra.
From Verif Require Import Numpy Model_Plot Spec_Plot Proof_Plot.
Import ListNotations.
Open Scope R_scope.
Open Scope list_scope.

(** ** C82: option dictionaries *)

(** Every dictionary other than the one passed as contourOpts is untouched, whatever happens. *)
Theorem C82_other_dictionaries_unchanged : forall a h l, l <> pa_contourOpts a -> snd (plot2Ddata a h) l = h l.
Proof. exact plot_frame. Qed.

(** contourOpts without vmin and vmax is untouched. *)
Theorem C82_no_limits_unchanged : forall a h,
  dget (h (pa_contourOpts a)) "vmin" = None -> dget (h (pa_contourOpts a)) "vmax" = None ->
  snd (plot2Ddata a h) = h.
Proof. exact no_limits_unchanged. Qed.

(** With colour limits the caller's dictionary loses exactly those two keys ... *)
Theorem C82_limits_removed : forall a h, sensible a h ->
  without_limits (h (pa_contourOpts a)) (snd (plot2Ddata a h) (pa_contourOpts a)).
Proof. exact limits_removed. Qed.

(** ... so it is unchanged exactly when it held neither: the claim is false otherwise. *)
Theorem C82_unchanged_iff_no_limits_refuted : forall a h, sensible a h ->
  (same_dict (snd (plot2Ddata a h) (pa_contourOpts a)) (h (pa_contourOpts a)) <->
   dget (h (pa_contourOpts a)) "vmin" = None /\ dget (h (pa_contourOpts a)) "vmax" = None).
Proof. exact unchanged_iff. Qed.

(** Contradicting limits raise before anything is drawn. *)
Theorem C82_conflict_raises : forall a h lo hi x, pa_clim a = Some (lo, hi) ->
  number_if_given (h (pa_contourOpts a)) "vmin" ->
  ((dget (h (pa_contourOpts a)) "vmin" = Some (ONum x) /\ ~ close x lo) \/
   (dget (h (pa_contourOpts a)) "vmax" = Some (ONum x) /\ ~ close x hi)) ->
  fst (plot2Ddata a h) = (Raise OtherError, []).
Proof. exact conflict_raises. Qed.

(** a scalar plot of values 1, 5, nan, 3 with one option dictionary at location 0 *)
Definition w_args := PA false true false false false false false 4 None 0 1 2 3 [Some 1; Some 5; None; Some 3].
Definition w_heap : heap := fun i => match i with O => [("vmin"%string, ONum 2); ("alpha"%string, OOther 7)] | _ => [] end.
Lemma w_sensible : sensible w_args w_heap.
Proof.
  unfold sensible, number_if_given, agrees. cbn. repeat split; [right; exists 2; reflexivity|left; reflexivity| |]; discriminate.
Qed.
Example C82_witness : sensible w_args w_heap /\ dget (snd (plot2Ddata w_args w_heap) 0%nat) "vmin" = None /\
  dget (snd (plot2Ddata w_args w_heap) 0%nat) "alpha" = Some (OOther 7).
Proof.
  split; [exact w_sensible|]. pose proof (C82_limits_removed w_args w_heap w_sensible) as (A & B & C).
  split; [exact A|]. change (pa_contourOpts w_args) with 0%nat in C. rewrite (C "alpha"%string) by discriminate. reflexivity.
Qed.
(** the same call made twice colours differently: the second one has lost vmin = 2 *)
Example C82_second_call_differs :
  snd (fst (plot2Ddata w_args w_heap)) <> snd (fst (plot2Ddata w_args (snd (plot2Ddata w_args w_heap)))).
Proof.
  destruct (limits_used w_args w_heap w_sensible) as (v & w & kw & rest & E & L & U & N & _);
    [exists 1; left; reflexivity|reflexivity|reflexivity|].
  set (h2 := snd (plot2Ddata w_args w_heap)).
  pose proof (C82_limits_removed w_args w_heap w_sensible) as (A & B & C). fold h2 in A, B, C.
  change (pa_contourOpts w_args) with 0%nat in *.
  assert (S2 : sensible w_args h2).
  { unfold sensible, number_if_given, agrees. change (pa_contourOpts w_args) with 0%nat. rewrite A, B.
    repeat split; auto; discriminate. }
  destruct (limits_used w_args h2 S2) as (v2 & w2 & kw2 & rest2 & E2 & L2 & U2 & N2 & _);
    [exists 1; left; reflexivity| | |];
    [change (pa_contourOpts w_args) with 0%nat; rewrite (C "norm"%string) by discriminate; reflexivity
    |change (pa_contourOpts w_args) with 0%nat; rewrite (C "levels"%string) by discriminate; reflexivity|].
  rewrite E, E2. intro K. injection K as K _. rewrite K in N. rewrite N in N2. injection N2 as Hv _.
  unfold lower_limit in L, L2. cbn in L. injection L as L.
  change (pa_clim w_args) with (@None (R * R)) in L2. cbv beta iota in L2.
  change (pa_contourOpts w_args) with 0%nat in L2. rewrite A in L2.
  destruct L2 as [_ L2]. assert (v2 <= 1) by (apply L2; exists 1; split; [left; reflexivity|reflexivity]). lra.
Qed.
Example C82_conflict_witness :
  pa_clim (PA false true false false false false false 4 (Some (0, 9)) 0 1 2 3 []) = Some (0, 9) /\
  dget (w_heap 0%nat) "vmin" = Some (ONum 2) /\ ~ close 2 0.
Proof.
  repeat split. unfold close. rewrite Rminus_0_r, Rabs_R0, Rabs_pos_eq by lra. lra.
Qed.

(** ** C83: level lines *)
Theorem C83_scalar_levels : forall a h, sensible a h -> some_data a -> pa_vec a = false ->
  pa_figname a = false \/ pa_ax a = false ->
  exists n, fst (fst (plot2Ddata a h)) = Ok n /\
    (pa_level a = true -> n = 3%nat /\ Exists is_contour (snd (fst (plot2Ddata a h)))).
Proof. exact scalar_levels. Qed.
(** Vector data with level=True never succeeds: on a call that is otherwise fine, TypeError after
    the filled contours and the streamlines have been drawn. *)
Theorem C83_vector_levels_refuted : forall a h n, pa_vec a = true -> pa_level a = true ->
  fst (fst (plot2Ddata a h)) <> Ok n.
Proof. exact vector_levels_never. Qed.
Theorem C83_vector_levels_type_error : forall a h, sensible a h -> some_data a -> pa_vec a = true -> pa_level a = true ->
  fst (fst (plot2Ddata a h)) = Raise TypeError /\ length (snd (fst (plot2Ddata a h))) = 2%nat.
Proof. exact vector_levels_type_error. Qed.
Theorem C83_without_levels : forall a h, sensible a h -> some_data a -> pa_level a = false ->
  pa_figname a = false \/ pa_ax a = false -> fst (fst (plot2Ddata a h)) = Ok 2%nat.
Proof. exact vector_no_levels. Qed.
(** Saving a figure drawn on given axes fails. *)
Theorem C83_figname_with_ax_refuted : forall a h, sensible a h -> some_data a -> pa_vec a = false \/ pa_level a = false ->
  pa_figname a = true -> pa_ax a = true -> fst (fst (plot2Ddata a h)) = Raise NameError.
Proof. exact figname_with_ax. Qed.
Example C83_witness : sensible w_args w_heap /\ some_data w_args /\ pa_vec w_args = false /\ pa_level w_args = true.
Proof. split; [exact w_sensible|]. split; [exists 1; left; reflexivity|]. split; reflexivity. Qed.
Example C83_vector_witness :
  let a := PA true true false false false false false 4 None 0 1 2 3 [Some 1; None] in sensible a w_heap /\ some_data a.
Proof.
  split; [|exists 1; left; reflexivity].
  unfold sensible, number_if_given, agrees. cbn. repeat split; [right; exists 2; reflexivity|left; reflexivity| |]; discriminate.
Qed.

(** ** C88: colour limits *)
(** The filled contours use clim, else contourOpts, else the range of the values drawn, and get
    these limits as norm and levels, not as vmin / vmax keywords. *)
Theorem C88_limits_used : forall a h, sensible a h -> some_data a ->
  dget (h (pa_contourOpts a)) "norm" = None -> dget (h (pa_contourOpts a)) "levels" = None ->
  exists vmin vmax kw rest,
    snd (fst (plot2Ddata a h)) = Contourf (if pa_log a then map (option_map Rabs) (pa_grid a) else pa_grid a) kw :: rest /\
    lower_limit a h vmin /\ upper_limit a h vmax /\
    dget kw "norm" = Some (ONorm (pa_log a) vmin vmax) /\ dget kw "levels" = Some (OLevels (levels_of a vmin vmax)) /\
    dget kw "vmin" = None /\ dget kw "vmax" = None.
Proof. exact limits_used. Qed.
(** The ncontour + 1 levels increase from the lower to the upper limit. *)
Theorem C88_levels : forall a vmin vmax, (pa_ncontour a <> 0)%nat -> (pa_log a = true -> 0 < vmin) -> vmin < vmax ->
  let l := levels_of a vmin vmax in
  length l = S (pa_ncontour a) /\ nth 0 l 0 = vmin /\ nth (pa_ncontour a) l 0 = vmax /\
  (forall i j, (i < j <= pa_ncontour a)%nat -> nth i l 0 < nth j l 0).
Proof. exact levels_ends. Qed.
Example C88_witness : sensible w_args w_heap /\ some_data w_args /\ dget (w_heap 0%nat) "norm" = None /\
  lower_limit w_args w_heap 2 /\ upper_limit w_args w_heap 5.
Proof.
  split; [exact w_sensible|]. split; [exists 1; left; reflexivity|]. split; [reflexivity|]. split; [reflexivity|].
  unfold upper_limit. cbn. split.
  - exists 5. split; [cbn; auto|reflexivity].
  - intros w (x & I & ->). cbn in I. destruct I as [I|[I|[I|[I|[]]]]]; try discriminate; injection I as <-; cbn; lra.
Qed.

Example C88_levels_witness : (pa_ncontour w_args <> 0)%nat /\ (pa_log w_args = true -> 0 < 2) /\ 2 < 5.
Proof. cbn. repeat split; [lia|discriminate|lra]. Qed.

(** ** C89: hill shading *)
Theorem C89_range : forall x y asp az alt, 0 <= hillshade x y asp az alt <= 255.
Proof. exact hillshade_range. Qed.
Theorem C89_flat : forall asp az alt, hillshade 0 0 asp az alt = 255 * (sin (alt * PI / 180) + 1) / 2.
Proof. exact hillshade_flat. Qed.
Theorem C89_azimuth_period : forall x y asp az alt, hillshade x y asp (az + 360) alt = hillshade x y asp az alt.
Proof. exact hillshade_azimuth_period. Qed.
Print Assumptions C82_other_dictionaries_unchanged.
Print Assumptions C82_no_limits_unchanged.
Print Assumptions C82_limits_removed.
Print Assumptions C82_unchanged_iff_no_limits_refuted.
Print Assumptions C82_conflict_raises.
Print Assumptions C83_scalar_levels.
Print Assumptions C83_vector_levels_refuted.
Print Assumptions C83_vector_levels_type_error.
Print Assumptions C83_without_levels.
Print Assumptions C83_figname_with_ax_refuted.
Print Assumptions C88_limits_used.
Print Assumptions C88_levels.
Print Assumptions C89_range.
Print Assumptions C89_flat.
Print Assumptions C89_azimuth_period.
