From Coq Require Import String Reals List Arith Bool Lia Lra.
From Coquelicot Require Import Rcomplements.
From Verif Require Import Numpy Model_Plot Spec_Plot.
Import ListNotations.
Open Scope R_scope.
Open Scope list_scope.

Lemma dget_dpop_same : forall d k, dget (dpop d k) k = None.
Proof.
  intros d k. unfold dget, dpop. induction d as [|[k' v] d IH]; cbn; [reflexivity|].
  destruct (String.eqb k' k) eqn:E; cbn; [exact IH|]. rewrite E. exact IH.
Qed.
Lemma dget_dpop_other : forall d k j, j <> k -> dget (dpop d k) j = dget d j.
Proof.
  intros d k j N. unfold dget, dpop. induction d as [|[k' v] d IH]; cbn; [reflexivity|].
  destruct (String.eqb k' k) eqn:E; cbn.
  - apply String.eqb_eq in E. subst k'. destruct (String.eqb k j) eqn:F; [apply String.eqb_eq in F; congruence|]. exact IH.
  - destruct (String.eqb k' j); [reflexivity|exact IH].
Qed.
Lemma dget_app : forall d e k, dget (d ++ e) k = match dget d k with Some v => Some v | None => dget e k end.
Proof.
  intros d e k. unfold dget. induction d as [|[k' v] d IH]; cbn; [reflexivity|].
  destruct (String.eqb k' k); [reflexivity|exact IH].
Qed.
Lemma dget_merge : forall d u k, dget (merge d u) k = match dget u k with Some v => Some v | None => dget d k end.
Proof.
  intros d u k. unfold merge. rewrite dget_app. destruct (dget u k) eqn:E; [reflexivity|].
  induction d as [|[k' v] d IH]; cbn; [reflexivity|].
  unfold dget in *. cbn. destruct (String.eqb k' k) eqn:F.
  - apply String.eqb_eq in F. subst k'. unfold has at 1. unfold dget. rewrite E. cbn.
    rewrite String.eqb_refl. reflexivity.
  - destruct (has u k'); cbn; [exact IH|]. rewrite F. exact IH.
Qed.
Lemma dget_none_dpop : forall d k, dget d k = None -> dpop d k = d.
Proof.
  intros d k. unfold dget, dpop. induction d as [|[k' v] d IH]; cbn; [reflexivity|].
  destruct (String.eqb k' k) eqn:E; cbn; [discriminate|]. intro H. f_equal. apply IH. exact H.
Qed.

Lemma isclose_iff : forall a b, isclose a b = true <-> close a b.
Proof. intros. unfold isclose, close, Rleb. destruct Rle_dec; split; intro; try congruence; contradiction. Qed.

Lemma store_same : forall h l d, store h l d l = d.
Proof. intros. unfold store. rewrite Nat.eqb_refl. reflexivity. Qed.
Lemma store_other : forall h l d i, i <> l -> store h l d i = h i.
Proof. intros. unfold store. destruct (Nat.eqb_spec i l); [contradiction|reflexivity]. Qed.

(** only the contourOpts dictionary can change, by losing the key *)
Lemma limit_key_frame : forall key lim l h i, i <> l -> snd (limit_key key lim l h) i = h i.
Proof.
  intros. unfold limit_key. destruct (dget (h l) key) as [v|]; [|reflexivity].
  destruct lim as [b|]; [|cbn; apply store_other; assumption].
  destruct v; try reflexivity. destruct (isclose x b); [cbn; apply store_other; assumption|reflexivity].
Qed.
Lemma limit_key_absent : forall key lim l h, dget (h l) key = None -> limit_key key lim l h = (Ok lim, h).
Proof. intros. unfold limit_key. rewrite H. reflexivity. Qed.
Lemma limit_key_ok : forall key lim l h o h', limit_key key lim l h = (Ok o, h') ->
  h' l = dpop (h l) key.
Proof.
  intros key lim l h o h'. unfold limit_key. destruct (dget (h l) key) as [v|] eqn:E.
  - destruct lim as [b|].
    + destruct v; try discriminate. destruct (isclose x b); [|discriminate]. intros [= <- <-]. apply store_same.
    + intro H. injection H as _ <-. apply store_same.
  - intros [= <- <-]. symmetry. apply dget_none_dpop. exact E.
Qed.

Lemma plot_heap : forall a h v0 h0 v1 h1,
  let lim0 := match pa_clim a with Some (lo, _) => Some lo | None => None end in
  let lim1 := match pa_clim a with Some (_, hi) => Some hi | None => None end in
  limit_key "vmin" lim0 (pa_contourOpts a) h = (Ok v0, h0) ->
  limit_key "vmax" lim1 (pa_contourOpts a) h0 = (Ok v1, h1) ->
  snd (plot2Ddata a h) = h1.
Proof.
  intros a h v0 h0 v1 h1 lim0 lim1 E0 E1. unfold plot2Ddata. fold lim0 lim1.
  cbv zeta. rewrite E0, E1.
  destruct (or_default v0 _); [|reflexivity]. destruct (or_default v1 _); [|reflexivity].
  destruct (if pa_level a then _ else _); [|reflexivity].
  destruct (pa_figname a); [destruct (pa_ax a)|]; reflexivity.
Qed.

Lemma plot_frame : forall a h l, l <> pa_contourOpts a -> snd (plot2Ddata a h) l = h l.
Proof.
  intros a h l N.
  set (lim0 := match pa_clim a with Some (lo, _) => Some lo | None => None end).
  set (lim1 := match pa_clim a with Some (_, hi) => Some hi | None => None end).
  destruct (limit_key "vmin" lim0 (pa_contourOpts a) h) as [[v0|e] h0] eqn:E0.
  - pose proof (limit_key_frame "vmin" lim0 _ h l N) as F0. rewrite E0 in F0. cbn in F0.
    pose proof (limit_key_frame "vmax" lim1 _ h0 l N) as F1.
    destruct (limit_key "vmax" lim1 (pa_contourOpts a) h0) as [[v1|e] h1] eqn:E1; cbn in F1.
    + rewrite (plot_heap a h v0 h0 v1 h1 E0 E1). congruence.
    + unfold plot2Ddata. fold lim0 lim1. cbv zeta. rewrite E0, E1. cbn. congruence.
  - unfold plot2Ddata. fold lim0. cbv zeta. rewrite E0.
    pose proof (limit_key_frame "vmin" lim0 _ h l N) as F0. rewrite E0 in F0. exact F0.
Qed.

Lemma limit_key_sensible : forall key lim l h, number_if_given (h l) key ->
  (forall b x, lim = Some b -> dget (h l) key = Some (ONum x) -> close x b) ->
  exists h', limit_key key lim l h =
    (Ok (match lim with Some b => Some b | None => match dget (h l) key with Some (ONum x) => Some x | _ => None end end), h').
Proof.
  intros key lim l h [H|[x H]] C; unfold limit_key; rewrite H.
  - exists h. destruct lim; reflexivity.
  - destruct lim as [b|].
    + specialize (C b x eq_refl H). apply isclose_iff in C. rewrite C. eexists. reflexivity.
    + eexists. reflexivity.
Qed.

Lemma sensible_limits : forall a h, sensible a h ->
  exists h0 h1,
    limit_key "vmin" (match pa_clim a with Some (lo, _) => Some lo | None => None end) (pa_contourOpts a) h =
      (Ok (match pa_clim a with Some (lo, _) => Some lo | None =>
             match dget (h (pa_contourOpts a)) "vmin" with Some (ONum x) => Some x | _ => None end end), h0) /\
    limit_key "vmax" (match pa_clim a with Some (_, hi) => Some hi | None => None end) (pa_contourOpts a) h0 =
      (Ok (match pa_clim a with Some (_, hi) => Some hi | None =>
             match dget (h (pa_contourOpts a)) "vmax" with Some (ONum x) => Some x | _ => None end end), h1) /\
    h1 (pa_contourOpts a) = dpop (dpop (h (pa_contourOpts a)) "vmin") "vmax".
Proof.
  intros a h (N0 & N1 & A).
  destruct (limit_key_sensible "vmin" (match pa_clim a with Some (lo, _) => Some lo | None => None end) (pa_contourOpts a) h N0) as [h0 E0].
  { intros b x Hb Hx. destruct (pa_clim a) as [[lo hi]|]; [|discriminate]. injection Hb as <-.
    exact (proj1 (A lo hi eq_refl) x Hx). }
  pose proof (limit_key_ok _ _ _ _ _ _ E0) as P0.
  assert (G : dget (h0 (pa_contourOpts a)) "vmax" = dget (h (pa_contourOpts a)) "vmax")
    by (rewrite P0; apply dget_dpop_other; discriminate).
  destruct (limit_key_sensible "vmax" (match pa_clim a with Some (_, hi) => Some hi | None => None end) (pa_contourOpts a) h0) as [h1 E1].
  { unfold number_if_given. rewrite G. exact N1. }
  { intros b x Hb Hx. rewrite G in Hx. destruct (pa_clim a) as [[lo hi]|]; [|discriminate]. injection Hb as <-.
    exact (proj2 (A lo hi eq_refl) x Hx). }
  pose proof (limit_key_ok _ _ _ _ _ _ E1) as P1.
  exists h0, h1. split; [|split].
  - rewrite E0. destruct (pa_clim a) as [[lo hi]|]; reflexivity.
  - rewrite E1, G. destruct (pa_clim a) as [[lo hi]|]; reflexivity.
  - rewrite P1, P0. reflexivity.
Qed.

Lemma limits_removed : forall a h, sensible a h ->
  without_limits (h (pa_contourOpts a)) (snd (plot2Ddata a h) (pa_contourOpts a)).
Proof.
  intros a h S. destruct (sensible_limits a h S) as (h0 & h1 & E0 & E1 & P).
  rewrite (plot_heap a h _ _ _ _ E0 E1), P.
  repeat split.
  - rewrite dget_dpop_other by discriminate. apply dget_dpop_same.
  - apply dget_dpop_same.
  - intros k N0 N1. rewrite !dget_dpop_other by assumption. reflexivity.
Qed.

Lemma unchanged_iff : forall a h, sensible a h ->
  (same_dict (snd (plot2Ddata a h) (pa_contourOpts a)) (h (pa_contourOpts a)) <->
   dget (h (pa_contourOpts a)) "vmin" = None /\ dget (h (pa_contourOpts a)) "vmax" = None).
Proof.
  intros a h S. destruct (limits_removed a h S) as (A & B & C). split.
  - intro E. rewrite <- (E "vmin"%string), <- (E "vmax"%string). auto.
  - intros [V W] k. destruct (string_dec k "vmin") as [->|N0]; [congruence|].
    destruct (string_dec k "vmax") as [->|N1]; [congruence|]. apply C; assumption.
Qed.

Lemma no_limits_unchanged : forall a h, dget (h (pa_contourOpts a)) "vmin" = None -> dget (h (pa_contourOpts a)) "vmax" = None ->
  snd (plot2Ddata a h) = h.
Proof.
  intros a h V W. eapply plot_heap; apply limit_key_absent; assumption.
Qed.

Lemma conflict_raises : forall a h lo hi x, pa_clim a = Some (lo, hi) ->
  number_if_given (h (pa_contourOpts a)) "vmin" ->
  ((dget (h (pa_contourOpts a)) "vmin" = Some (ONum x) /\ ~ close x lo) \/
   (dget (h (pa_contourOpts a)) "vmax" = Some (ONum x) /\ ~ close x hi)) ->
  fst (plot2Ddata a h) = (Raise OtherError, []).
Proof.
  intros a h lo hi x Ec N H. unfold plot2Ddata. rewrite Ec. cbv zeta.
  assert (NC : forall u v, ~ close u v -> isclose u v = false)
    by (intros u v K; destruct (isclose u v) eqn:I; [apply isclose_iff in I; contradiction|reflexivity]).
  destruct N as [E|[y E]].
  - rewrite limit_key_absent by exact E.
    destruct H as [[H _]|[H K]]; [congruence|]. unfold limit_key. rewrite H, (NC _ _ K). reflexivity.
  - destruct (isclose y lo) eqn:I.
    + assert (K : limit_key "vmin" (Some lo) (pa_contourOpts a) h =
        (Ok (Some lo), store h (pa_contourOpts a) (dpop (h (pa_contourOpts a)) "vmin"))).
      { unfold limit_key. rewrite E, I. reflexivity. }
      rewrite K. destruct H as [[H J]|[H J]].
      * rewrite E in H. injection H as ->. apply isclose_iff in I. contradiction.
      * unfold limit_key. rewrite store_same, dget_dpop_other by discriminate. rewrite H, (NC _ _ J). reflexivity.
    + unfold limit_key at 1. rewrite E, I. reflexivity.
Qed.

(** ** data limits *)
Lemma finite_In : forall l x, In x (finite l) <-> In (Some x) l.
Proof.
  induction l as [|[y|] l IH]; cbn; intro x; [tauto| |].
  - rewrite IH. split; intros [H|H]; auto; [left; congruence|injection H as ->; auto].
  - rewrite IH. split; [auto|]. intros [H|H]; [discriminate|exact H].
Qed.
Lemma fold_min : forall l x, (In (fold_left Rmin l x) (x :: l)) /\ (forall w, In w (x :: l) -> fold_left Rmin l x <= w).
Proof.
  induction l as [|y l IH]; intro x; cbn [fold_left].
  - split; [left; reflexivity|]. intros w [->|[]]. lra.
  - destruct (IH (Rmin x y)) as [A B]. split.
    + destruct A as [A|A]; [|right; right; exact A].
      unfold Rmin at 1 in A. destruct (Rle_dec x y); [left|right; left]; exact A.
    + intros w [<-|[<-|H]].
      * eapply Rle_trans; [apply B; left; reflexivity|apply Rmin_l].
      * eapply Rle_trans; [apply B; left; reflexivity|apply Rmin_r].
      * apply B. right. exact H.
Qed.
Lemma fold_max : forall l x, (In (fold_left Rmax l x) (x :: l)) /\ (forall w, In w (x :: l) -> w <= fold_left Rmax l x).
Proof.
  induction l as [|y l IH]; intro x; cbn [fold_left].
  - split; [left; reflexivity|]. intros w [->|[]]. lra.
  - destruct (IH (Rmax x y)) as [A B]. split.
    + destruct A as [A|A]; [|right; right; exact A].
      unfold Rmax at 1 in A. destruct (Rle_dec x y); [right; left|left]; exact A.
    + intros w [<-|[<-|H]].
      * eapply Rle_trans; [apply Rmax_l|apply B; left; reflexivity].
      * eapply Rle_trans; [apply Rmax_r|apply B; left; reflexivity].
      * apply B. right. exact H.
Qed.
Definition cgrid (a : pargs) : list (option R) := if pa_log a then map (option_map Rabs) (pa_grid a) else pa_grid a.
Lemma coloured_iff : forall a v, coloured a v <-> In v (finite (cgrid a)).
Proof.
  intros a v. rewrite finite_In. unfold coloured, cgrid. destruct (pa_log a).
  - rewrite in_map_iff. split.
    + intros (x & I & ->). exists (Some x). auto.
    + intros ([x|] & E & I); [|discriminate]. injection E as <-. eauto.
  - split; [intros (x & I & ->); exact I|eauto].
Qed.
Lemma data_limits : forall a, some_data a ->
  exists m M, amin (finite (cgrid a)) = Ok m /\ amax (finite (cgrid a)) = Ok M /\
    least (coloured a) m /\ greatest (coloured a) M.
Proof.
  intros a [x I].
  assert (F : In (if pa_log a then Rabs x else x) (finite (cgrid a))) by (apply coloured_iff; exists x; auto).
  destruct (finite (cgrid a)) as [|y l] eqn:E; [destruct F|].
  destruct (fold_min l y) as [A B]. destruct (fold_max l y) as [A' B'].
  exists (fold_left Rmin l y), (fold_left Rmax l y). repeat split.
  - apply coloured_iff. rewrite E. exact A.
  - intros w Hw. apply B. rewrite <- E. apply coloured_iff. exact Hw.
  - apply coloured_iff. rewrite E. exact A'.
  - intros w Hw. apply B'. rewrite <- E. apply coloured_iff. exact Hw.
Qed.

(** ** the outcome of a call with sensible limits and some data *)
Lemma outcome : forall a h, sensible a h -> some_data a ->
  exists vmin vmax h1, lower_limit a h vmin /\ upper_limit a h vmax /\
    h1 (pa_contourOpts a) = dpop (dpop (h (pa_contourOpts a)) "vmin") "vmax" /\
    (forall l, l <> pa_contourOpts a -> h1 l = h l) /\
    plot2Ddata a h =
    let levels := levels_of a vmin vmax in
    let d1 := [Contourf (cgrid a) (merge [("levels"%string, OLevels levels); ("norm"%string, ONorm (pa_log a) vmin vmax); ("zorder"%string, OInt 1)] (h1 (pa_contourOpts a)))] in
    let d2 := if pa_vec a then [Streamplot (merge [("zorder"%string, OInt 4); ("color"%string, OOther 0)] (h1 (pa_streamplotOpts a)))] else [] in
    let lopts := merge [("levels"%string, OLevels levels); ("zorder"%string, OInt 3)] (h1 (pa_levelOpts a)) in
    let lcall := if pa_vec a then call_kw [("levels"%string, OLevels levels); ("zorder"%string, OInt 3)] lopts else Ok lopts in
    match (if pa_level a then rmap (fun kw => [Contour (cgrid a) kw]) lcall else Ok []) with
    | Raise e => (Raise e, d1 ++ d2, h1)
    | Ok d3 =>
      let d4 := if pa_shade a then
          [Shade (merge [("cmap"%string, OOther 1); ("alpha"%string, OOther 2); ("antialiased"%string, OOther 3); ("zorder"%string, OInt 2)] (h1 (pa_shadeOpts a)))] else [] in
      let d5 := if pa_dataloc a then [Points] else [] in
      let drawn := d1 ++ d2 ++ d3 ++ d4 ++ d5 in
      if pa_figname a then
        if pa_ax a then (Raise NameError, drawn, h1)
        else (Ok (if pa_level a then 3 else 2)%nat, drawn ++ [Save], h1)
      else (Ok (if pa_level a then 3 else 2)%nat, drawn, h1)
    end.
Proof.
  intros a h S D. pose proof S as (N0 & N1 & _).
  destruct (sensible_limits a h S) as (h0 & h1 & E0 & E1 & P).
  destruct (data_limits a D) as (m & M & Em & EM & Lm & LM).
  assert (L : exists vmin vmax, lower_limit a h vmin /\ upper_limit a h vmax /\
    or_default (match pa_clim a with Some (lo, _) => Some lo | None =>
             match dget (h (pa_contourOpts a)) "vmin" with Some (ONum x) => Some x | _ => None end end) (amin (finite (cgrid a))) = Ok vmin /\
    or_default (match pa_clim a with Some (_, hi) => Some hi | None =>
             match dget (h (pa_contourOpts a)) "vmax" with Some (ONum x) => Some x | _ => None end end) (amax (finite (cgrid a))) = Ok vmax).
  { rewrite Em, EM. unfold lower_limit, upper_limit. destruct (pa_clim a) as [[lo hi]|].
    - exists lo, hi. auto.
    - destruct N0 as [N0|[x N0]]; destruct N1 as [N1|[y N1]]; rewrite N0, N1; cbn;
        [exists m, M|exists m, y|exists x, M|exists x, y]; auto. }
  destruct L as (vmin & vmax & Ll & Lu & O0 & O1).
  exists vmin, vmax, h1. split; [exact Ll|]. split; [exact Lu|]. split; [exact P|]. split.
  { intros l N. rewrite <- (plot_heap a h _ _ _ _ E0 E1). apply plot_frame. exact N. }
  unfold plot2Ddata. cbv zeta. rewrite E0, E1.
  change (if pa_log a then map (option_map Rabs) (pa_grid a) else pa_grid a) with (cgrid a).
  rewrite O0, O1. reflexivity.
Qed.

Lemma scalar_levels : forall a h, sensible a h -> some_data a -> pa_vec a = false ->
  pa_figname a = false \/ pa_ax a = false ->
  exists n, fst (fst (plot2Ddata a h)) = Ok n /\ (pa_level a = true -> n = 3%nat /\ Exists is_contour (snd (fst (plot2Ddata a h)))).
Proof.
  intros a h S D V F. destruct (outcome a h S D) as (vmin & vmax & h1 & _ & _ & _ & _ & E).
  rewrite E. cbv zeta. rewrite V.
  assert (X : forall (l1 l2 : list draw) c, is_contour c -> Exists is_contour (l1 ++ c :: l2)).
  { intros. apply Exists_app. right. left. assumption. }
  assert (IC : forall v k, is_contour (Contour v k)) by (intros; unfold is_contour; eauto).
  destruct (pa_level a); cbn [rmap].
  - exists 3%nat. destruct (pa_figname a).
    + destruct F as [F|F]; [discriminate|]. rewrite F. cbn [fst snd]. split; [reflexivity|].
      intros _. split; [reflexivity|]. cbn [app]. right. left. apply IC.
    + cbn [fst snd]. split; [reflexivity|]. intros _. split; [reflexivity|]. cbn [app]. right. left. apply IC.
  - exists 2%nat. destruct (pa_figname a).
    + destruct F as [F|F]; [discriminate|]. rewrite F. split; [reflexivity|discriminate].
    + split; [reflexivity|discriminate].
Qed.

Lemma call_kw_dup : forall k v kw rest, dget kw k <> None -> call_kw ((k, v) :: rest) kw = Raise TypeError.
Proof.
  intros. unfold call_kw. cbn [existsb fst]. unfold has at 1. destruct (dget kw k); [reflexivity|contradiction].
Qed.

Lemma vector_levels_type_error : forall a h, sensible a h -> some_data a -> pa_vec a = true -> pa_level a = true ->
  fst (fst (plot2Ddata a h)) = Raise TypeError /\ length (snd (fst (plot2Ddata a h))) = 2%nat.
Proof.
  intros a h S D V L. destruct (outcome a h S D) as (vmin & vmax & h1 & _ & _ & _ & _ & E).
  rewrite E. cbv zeta. rewrite V, L. rewrite call_kw_dup; [split; reflexivity|].
  rewrite dget_merge. destruct (dget _ _); [discriminate|]. cbn. discriminate.
Qed.

Lemma vector_levels_never : forall a h n, pa_vec a = true -> pa_level a = true -> fst (fst (plot2Ddata a h)) <> Ok n.
Proof.
  intros a h n V L. unfold plot2Ddata. cbv zeta.
  destruct (limit_key "vmin" _ _ h) as [[v0|e] h0]; [|discriminate].
  destruct (limit_key "vmax" _ _ h0) as [[v1|e] h1]; [|discriminate].
  destruct (or_default v0 _) as [vmin|]; [|discriminate]. destruct (or_default v1 _) as [vmax|]; [|discriminate].
  rewrite V, L. rewrite call_kw_dup; [discriminate|].
  rewrite dget_merge. destruct (dget _ _); [discriminate|]. cbn. discriminate.
Qed.

Lemma vector_no_levels : forall a h, sensible a h -> some_data a -> pa_level a = false ->
  pa_figname a = false \/ pa_ax a = false -> fst (fst (plot2Ddata a h)) = Ok 2%nat.
Proof.
  intros a h S D L F. destruct (outcome a h S D) as (vmin & vmax & h1 & _ & _ & _ & _ & E).
  rewrite E. cbv zeta. rewrite L. destruct (pa_figname a); [|reflexivity].
  destruct F as [F|F]; [discriminate|]. rewrite F. reflexivity.
Qed.

Lemma figname_with_ax : forall a h, sensible a h -> some_data a -> pa_vec a = false \/ pa_level a = false ->
  pa_figname a = true -> pa_ax a = true -> fst (fst (plot2Ddata a h)) = Raise NameError.
Proof.
  intros a h S D V F A. destruct (outcome a h S D) as (vmin & vmax & h1 & _ & _ & _ & _ & E).
  rewrite E. cbv zeta. rewrite F, A.
  destruct V as [V|V]; rewrite V; [|reflexivity]. destruct (pa_level a); reflexivity.
Qed.

(** ** limits and levels *)
Lemma limits_used : forall a h, sensible a h -> some_data a ->
  dget (h (pa_contourOpts a)) "norm" = None -> dget (h (pa_contourOpts a)) "levels" = None ->
  exists vmin vmax kw rest, snd (fst (plot2Ddata a h)) = Contourf (cgrid a) kw :: rest /\
    lower_limit a h vmin /\ upper_limit a h vmax /\
    dget kw "norm" = Some (ONorm (pa_log a) vmin vmax) /\ dget kw "levels" = Some (OLevels (levels_of a vmin vmax)) /\
    dget kw "vmin" = None /\ dget kw "vmax" = None.
Proof.
  intros a h S D Nn Nl. destruct (outcome a h S D) as (vmin & vmax & h1 & Ll & Lu & P & _ & E).
  set (kw := merge [("levels"%string, OLevels (levels_of a vmin vmax)); ("norm"%string, ONorm (pa_log a) vmin vmax); ("zorder"%string, OInt 1)] (h1 (pa_contourOpts a))).
  assert (Q : exists rest, snd (fst (plot2Ddata a h)) = Contourf (cgrid a) kw :: rest).
  { rewrite E. cbv zeta. fold kw. cbn [app].
    match goal with |- context [match ?m with Ok _ => _ | Raise _ => _ end] => destruct m end; [|eexists; reflexivity].
    destruct (pa_figname a); [destruct (pa_ax a)|]; eexists; reflexivity. }
  destruct Q as [rest Q]. exists vmin, vmax, kw, rest.
  split; [exact Q|]. split; [exact Ll|]. split; [exact Lu|].
  unfold kw. rewrite !dget_merge, P.
  repeat split.
  - rewrite !dget_dpop_other by discriminate. rewrite Nn. reflexivity.
  - rewrite !dget_dpop_other by discriminate. rewrite Nl. reflexivity.
  - rewrite dget_dpop_other by discriminate. rewrite dget_dpop_same. reflexivity.
  - rewrite dget_dpop_same. reflexivity.
Qed.

Lemma linspace_length : forall a b n, length (linspace a b n) = S n.
Proof. intros. destruct n; cbn [linspace]; [reflexivity|]. rewrite map_length, seq_length. reflexivity. Qed.
Lemma nth_linspace : forall a b n i d, (i <= n)%nat -> (n <> 0)%nat -> nth i (linspace a b n) d = a + INR i * ((b - a) / INR n).
Proof.
  intros. destruct n; [lia|]. cbn [linspace].
  rewrite (nth_indep _ d ((fun i => a + INR i * ((b - a) / INR (S n))) 0%nat))
    by (rewrite map_length, seq_length; lia).
  rewrite (map_nth (fun i => a + INR i * ((b - a) / INR (S n)))), seq_nth by lia. reflexivity.
Qed.
Lemma linspace_ends : forall a b n, (n <> 0)%nat -> nth 0 (linspace a b n) 0 = a /\ nth n (linspace a b n) 0 = b.
Proof.
  intros a b n H. rewrite !nth_linspace by lia. split; [cbn; ring|]. field. apply not_0_INR. exact H.
Qed.
Lemma linspace_mono : forall a b n i j, a < b -> (n <> 0)%nat -> (i < j <= n)%nat ->
  nth i (linspace a b n) 0 < nth j (linspace a b n) 0.
Proof.
  intros a b n i j L N H. rewrite !nth_linspace by lia.
  assert (0 < INR n) by (apply lt_0_INR; lia). assert (INR i < INR j) by (apply lt_INR; lia).
  assert (0 < (b - a) / INR n) by (apply Rdiv_lt_0_compat; lra). nra.
Qed.
Lemma pow_log10 : forall x, 0 < x -> exp (log10 x * ln 10) = x.
Proof.
  intros. unfold log10. assert (0 < ln 10) by (rewrite <- ln_1; apply ln_increasing; lra).
  replace (ln x / ln 10 * ln 10) with (ln x) by (field; lra). apply exp_ln. assumption.
Qed.
Lemma nth_logspace : forall a b n i, (i <= n)%nat -> nth i (logspace a b n) 0 = exp (nth i (linspace a b n) 0 * ln 10).
Proof.
  intros. unfold logspace.
  rewrite (nth_indep _ 0 ((fun e => exp (e * ln 10)) 0)) by (rewrite map_length, linspace_length; lia).
  rewrite (map_nth (fun e => exp (e * ln 10))). reflexivity.
Qed.
Lemma levels_ends : forall a vmin vmax, (pa_ncontour a <> 0)%nat -> (pa_log a = true -> 0 < vmin) -> vmin < vmax ->
  let l := levels_of a vmin vmax in
  length l = S (pa_ncontour a) /\ nth 0 l 0 = vmin /\ nth (pa_ncontour a) l 0 = vmax /\
  (forall i j, (i < j <= pa_ncontour a)%nat -> nth i l 0 < nth j l 0).
Proof.
  intros a vmin vmax N P L l. unfold l, levels_of. destruct (pa_log a).
  - specialize (P eq_refl). unfold logspace at 1. rewrite map_length, linspace_length.
    destruct (linspace_ends (log10 vmin) (log10 vmax) _ N) as [A B].
    assert (L10 : 0 < ln 10) by (rewrite <- ln_1; apply ln_increasing; lra).
    split; [reflexivity|]. split; [|split].
    + rewrite nth_logspace, A by lia. apply pow_log10. lra.
    + rewrite nth_logspace, B by lia. apply pow_log10. lra.
    + intros i j H. rewrite !nth_logspace by lia. apply exp_increasing.
      apply Rmult_lt_compat_r; [exact L10|]. apply linspace_mono; [|exact N|exact H].
      unfold log10. apply Rmult_lt_compat_r; [apply Rinv_0_lt_compat; exact L10|].
      apply ln_increasing; lra.
  - rewrite linspace_length. destruct (linspace_ends vmin vmax _ N) as [A B].
    split; [reflexivity|]. split; [exact A|]. split; [exact B|].
    intros. apply linspace_mono; assumption.
Qed.

(** ** hillshade *)
Lemma mix_bound : forall A s c, -1 <= c <= 1 -> Rabs (sin A * sin s + cos A * cos s * c) <= 1.
Proof.
  intros A s c H.
  pose proof (sin2_cos2 A) as E1. pose proof (sin2_cos2 s) as E2. unfold Rsqr in *.
  apply Rabs_le. assert (C2 : c * c <= 1) by nra. assert ((cos s * c) * (cos s * c) <= cos s * cos s)
    by (pose proof (Rle_0_sqr (cos s)) as Q; unfold Rsqr in Q; nra).
  pose proof (Rle_0_sqr (sin A - sin s)). pose proof (Rle_0_sqr (cos A - cos s * c)).
  pose proof (Rle_0_sqr (sin A + sin s)). pose proof (Rle_0_sqr (cos A + cos s * c)). unfold Rsqr in *. nra.
Qed.
Lemma hillshade_range : forall x y asp az alt, 0 <= hillshade x y asp az alt <= 255.
Proof.
  intros. unfold hillshade.
  pose proof (mix_bound (alt * PI / 180) (PI / 2 - atan (sqrt (x * x + y * y)))
    (cos ((360 - az) * PI / 180 - PI / 2 - asp)) (COS_bound _)) as B.
  cbv zeta. apply Rabs_le_between in B. split; lra.
Qed.
Lemma hillshade_flat : forall asp az alt, hillshade 0 0 asp az alt = 255 * (sin (alt * PI / 180) + 1) / 2.
Proof.
  intros. unfold hillshade. replace (0 * 0 + 0 * 0) with 0 by ring. rewrite sqrt_0, atan_0.
  replace (PI / 2 - 0) with (PI / 2) by ring. rewrite sin_PI2, cos_PI2. cbv zeta. field.
Qed.
Lemma hillshade_azimuth_period : forall x y asp az alt, hillshade x y asp (az + 360) alt = hillshade x y asp az alt.
Proof.
  intros. unfold hillshade. cbv zeta.
  replace (cos ((360 - (az + 360)) * PI / 180 - PI / 2 - asp)) with (cos ((360 - az) * PI / 180 - PI / 2 - asp)); [reflexivity|].
  replace ((360 - az) * PI / 180 - PI / 2 - asp) with (((360 - (az + 360)) * PI / 180 - PI / 2 - asp) + 2 * PI) by field.
  rewrite cos_plus, cos_2PI, sin_2PI. ring.
Qed.
