(** Array evaluation of the wires *)
From Coq Require Import String Reals List Arith Lia Lra Bool.
From Verif Require Import Vec3 Numpy Model_Utils Proof_Utils Model_Spatial Model_Static Model_Gravity Model_Prism Model_Batch Model_TDEM Model_Arrays Proof_Arrays Spec_Arrays Proof_Arrays2 Model_Arrays2 Spec_Arrays2 Proof_Arrays3 Proof_Arrays4 Model_Arrays3 Proof_Arrays7.
Import ListNotations.
Open Scope nat_scope.

Lemma item_points S a v c : points_of S a v -> c < 3 -> exists r, item a c = Ok r /\ scalars_of S r (fun j => component (v j) c).
Proof.
  intros [E H] L. destruct (item_scalars S a 3 c E L) as (r & Er & [Es Hs]). exists r. split; [exact Er|]. split; [exact Es|].
  intros j Hj. rewrite (Hs j Hj), <- (H j Hj), comp_vec_at by exact L. reflexivity.
Qed.
Ltac ipoints S P := match goal with |- context [item ?a ?c] =>
  let r := fresh "g" in let E := fresh "E" in let R := fresh "G" in
  destruct (item_points S a _ c P ltac:(lia)) as (r & E & R); rewrite E; clear E; cbn [rbind] end.

Section WireA.
  Variables (K : kernels) (a : nd R) (S : list nat).
  Hypothesis HK : computes (k_fzy K) prism_fzy.
  Hypothesis Ea : shape a = S ++ [3].
  Definition temp_A (t : nd R) : Prop := shape t = S ++ [3] /\ forall j c, inside S j -> 0 < c < 3 -> get t (j ++ [c]) = 0%R.
  Lemma seg_A_step p0 p1 out temp o : points_of S out o -> temp_A temp ->
    (exists e, seg_A_nd K a p0 p1 (out, temp) = Raise e /\ forall p, seg_A p0 p1 p = Raise e) \/
    (exists out' temp' d, seg_A_nd K a p0 p1 (out, temp) = Ok (out', temp') /\ temp_A temp' /\ points_of S out' (fun j => vadd (o j) (d j)) /\
      forall j, seg_A p0 p1 (vec_at a j) = Ok (d j)).
  Proof.
    intros HO [Et Ht]. unfold seg_A_nd, seg_A. destruct (rotation_matrix_v _ _ _) as [rot|e]; [|left; exists e; split; reflexivity]. right.
    cbn [rbind]. cbv zeta. destruct (check_points S a Ea) as [_ P].
    pose proof (map_rows_points S a _ (fun p => mvec rot (vsub p p0)) P) as P0. rewrite Ea, removelast_snoc.
    set (r0 := of_rows S (map _ (rows a))) in *.
    destruct (sub_points S r0 _ (V3 (vnorm (vsub p1 p0)) 0 0) P0) as (r1 & -> & P1). cbn [rbind].
    do 3 ipoints S P0. kstep S HK. cbn [rmap]. cbn [rbind]. do 3 ipoints S P1. kstep S HK. cbn [rmap]. cbn [rbind]. sbop S.
    match goal with X : scalars_of S ?d _ |- context [set_item temp 0 ?d] => destruct X as [Ed Hd] end.
    match goal with |- context [set_item temp 0 ?d] => set (t := set_item temp 0 d) end.
    pose (dv := fun j => mvec (mtrans rot) (V3 (- prism_fzy (vx (vsub (mvec rot (vsub (vec_at a j) p0)) (V3 (vnorm (vsub p1 p0)) 0 0))) (vy (vsub (mvec rot (vsub (vec_at a j) p0)) (V3 (vnorm (vsub p1 p0)) 0 0))) (vz (vsub (mvec rot (vsub (vec_at a j) p0)) (V3 (vnorm (vsub p1 p0)) 0 0))) - - prism_fzy (vx (mvec rot (vsub (vec_at a j) p0))) (vy (mvec rot (vsub (vec_at a j) p0))) (vz (mvec rot (vsub (vec_at a j) p0))))%R 0 0)).
    assert (Pt : points_of S (of_rows S (map (mvec (mtrans rot)) (rows t))) dv).
    { assert (Q : points_of S t (fun j => V3 (get r3 j) 0 0)).
      { split; [exact Et|]. intros j Hj. unfold vec_at, t, set_item. cbn [get]. rewrite !last_last, !removelast_snoc. cbn [Nat.eqb].
        rewrite !Ht by (assumption || lia). reflexivity. }
      pose proof (map_rows_points S t _ (mvec (mtrans rot)) Q) as [E1 H1]. split; [exact E1|]. intros j Hj. rewrite (H1 j Hj). unfold dv.
      rewrite (Hd j Hj). reflexivity. }
    destruct (add_points S out _ _ _ HO Pt Rplus vadd plus_op) as (o' & -> & Ho'). cbn [rbind]. exists o', t, dv. split; [reflexivity|]. split; [|split; [exact Ho'|reflexivity]].
    split; [exact Et|]. intros j c Hj Hc. unfold t, set_item. cbn [get]. rewrite last_last. destruct (Nat.eqb_spec c 0); [lia|]. apply Ht; assumption.
  Qed.
  Lemma over_A segs : forall out temp o, points_of S out o -> temp_A temp ->
    (exists e, over_segments (seg_A_nd K a) segs (out, temp) = Raise e /\ forall p q, sum_segments (fun p0 p1 => seg_A p0 p1 p) segs q = Raise e) \/
    (exists out' temp' d, over_segments (seg_A_nd K a) segs (out, temp) = Ok (out', temp') /\ points_of S out' d /\
      forall j, sum_segments (fun p0 p1 => seg_A p0 p1 (vec_at a j)) segs (o j) = Ok (d j)).
  Proof.
    induction segs as [|[p0 p1] segs IH]; intros out temp o HO HT; cbn [over_segments sum_segments].
    - right. exists out, temp, o. split; [reflexivity|]. split; [exact HO|reflexivity].
    - destruct (seg_A_step p0 p1 out temp o HO HT) as [(e & -> & H)|(out' & temp' & d & -> & HT' & HO' & H)]; cbn [rbind].
      + left. exists e. split; [reflexivity|]. intros p q. rewrite H. reflexivity.
      + destruct (IH out' temp' _ HO' HT') as [(e & -> & H')|(o2 & t2 & d2 & -> & P2 & H')].
        * destruct segs as [|sg segs'].
          -- left. exists e. split; [reflexivity|]. intros p q. specialize (H' p q). discriminate H'.
          -- left. exists e. split; [reflexivity|]. intros p q. unfold rbind at 1. destruct (seg_A p0 p1 p) as [x|x] eqn:Ex; [apply H'|].
             exfalso. unfold seg_A in Ex. specialize (H [] ). unfold seg_A in H. destruct (rotation_matrix_v _ _ _); cbn [rbind] in *; discriminate.
        * right. exists o2, t2, d2. split; [reflexivity|]. split; [exact P2|]. intros j. rewrite H. cbn [rbind]. apply H'.
  Qed.
End WireA.
Lemma lc_A_array_ok K s S a : computes (k_fzy K) prism_fzy -> shape a = S ++ [3] ->
  per_point_or_raises (lc_vector_potential s) a (lc_A_array K s (XyzArray a)).
Proof.
  intros HK E. unfold lc_A_array, lc_vector_potential. destruct (check_points S a E) as [-> _]. cbn [rbind].
  assert (Z : points_of S (zeros_like a) (fun _ => vzero)) by (split; [exact E|reflexivity]).
  assert (T : temp_A S (zeros_like a)) by (split; [exact E|reflexivity]).
  destruct (over_A K a S HK E (segments (lc_nodes s)) _ _ _ Z T) as [(e & -> & H)|(o & t & d & -> & P & H)]; cbn [rbind fst].
  - left. exists e. split; [reflexivity|]. intros p. rewrite H. reflexivity.
  - right. destruct (amap_points (- lc_mu s * lc_current s / (4 * PI)) S o d P) as [Eo Ho]. eexists. split; [reflexivity|]. rewrite E, removelast_snoc.
    split; [exact Eo|]. intros j Hj. rewrite H. cbn [rbind]. rewrite (Ho j Hj). reflexivity.
Qed.

(** ** the magnetic field *)
Definition opoints_of (S : list nat) (a : nd (option R)) (v : list nat -> option vec3) : Prop :=
  scalars_of (S ++ [3]) a (fun ix => option_map (fun v => component v (last ix 0)) (v (removelast ix))).
Lemma inside_snoc S ix : inside (S ++ [3]) ix -> exists j c, ix = j ++ [c] /\ inside S j /\ c < 3.
Proof.
  intros H. apply Forall2_app_inv_l in H. destruct H as (j & t & Hj & Ht & ->). inversion Ht as [|n c l l' Hc Hn]; subst. inversion Hn; subst.
  exists j, c. auto.
Qed.
Lemma inside_app S j c : inside S j -> c < 3 -> inside (S ++ [3]) (j ++ [c]).
Proof. intros H1 H2. apply Forall2_app; [exact H1|]. constructor; [exact H2|constructor]. Qed.
Lemma oitem_scalars S a k c : shape a = S ++ [k] -> c < k -> exists r, oitem a c = Ok r /\ scalars_of S r (fun j => get a (j ++ [c])).
Proof.
  intros E L. unfold oitem. rewrite E, last_snoc, (proj2 (Nat.ltb_lt c k) L), removelast_snoc.
  eexists. split; [reflexivity|]. split; [reflexivity|]. intros j _. reflexivity.
Qed.
Lemma scalars_ext {A} S (a : nd A) u v : scalars_of S a u -> (forall j, inside S j -> u j = v j) -> scalars_of S a v.
Proof. intros [E H] K. split; [exact E|]. intros j Hj. rewrite (H j Hj). apply K. exact Hj. Qed.
Lemma add_opoints S a b v w : opoints_of S a v -> opoints_of S b w ->
  exists r, broadcast_op (olift2 Rplus) a b = Ok r /\ opoints_of S r (fun j => odo o <- v j; odo d <- w j; Some (vadd o d)).
Proof.
  intros H1 H2. destruct (bop_scalars (olift2 Rplus) _ a b _ _ H1 H2) as (r & E & Hr). exists r. split; [exact E|].
  eapply scalars_ext; [exact Hr|]. intros ix Hi. destruct (inside_snoc S ix Hi) as (j & c & -> & Hj & Hc). rewrite removelast_snoc, last_last.
  destruct (v j), (w j); cbn [option_map olift2 obind]; try reflexivity. f_equal. apply plus_op. exact Hc.
Qed.
Lemma hat_scalars S a v c : points_of S a v -> c < 3 -> exists h, broadcast_op fdiv a (norm_keep a) = Ok h /\
  exists r, oitem h c = Ok r /\ scalars_of S r (fun j => fdiv (component (v j) c) (vnorm (v j))).
Proof.
  intros P Hc. destruct (rep_bop [] S fdiv a (norm_keep a) _ _ _ _ (points_rep S [] a v P) (rep_norm S [] a v P)) as (h & E & R).
  exists h. split; [exact E|]. destruct (rep_exact [] S h _ _ R) as [Es Hs].
  { intros n L. left. rewrite app_length in L. cbn in L. rewrite app_length in L. cbn in L. lia. }
  cbn [app] in Es. destruct (oitem_scalars S h 3 c Es Hc) as (r & Er & Hr). exists r. split; [exact Er|].
  eapply scalars_ext; [exact Hr|]. intros j Hj. exact (Hs [] j c (Forall2_nil _) Hj Hc).
Qed.
Section WireB.
  Variables (a : nd R) (S : list nat).
  Hypothesis Ea : shape a = S ++ [3].
  Definition temp_B (t : nd (option R)) : Prop := shape t = S ++ [3] /\ forall j, inside S j -> get t (j ++ [0]) = Some 0%R.
  Lemma seg_B_step p0 p1 out temp o : opoints_of S out o -> temp_B temp ->
    (exists e, seg_B_nd a p0 p1 (out, temp) = Raise e /\ forall p, seg_B p0 p1 p = Raise e) \/
    (exists out' temp' d, seg_B_nd a p0 p1 (out, temp) = Ok (out', temp') /\ temp_B temp' /\
      opoints_of S out' (fun j => odo o <- o j; odo d <- d (vec_at a j); Some (vadd o d)) /\
      forall p, seg_B p0 p1 p = Ok (d p)).
  Proof.
    intros HO [Et Ht]. unfold seg_B_nd, seg_B. destruct (rotation_matrix_v _ _ _) as [rot|e]; [|left; exists e; split; reflexivity]. right.
    cbn [rbind]. cbv zeta. destruct (check_points S a Ea) as [_ P].
    pose proof (map_rows_points S a _ (fun p => mvec rot (vsub p p0)) P) as P0. rewrite Ea, removelast_snoc.
    set (r0 := of_rows S (map _ (rows a))) in *. set (l := vnorm (vsub p1 p0)) in *.
    destruct (sub_points S r0 _ (V3 l 0 0) P0) as (r1 & -> & P1). cbn [rbind].
    destruct (hat_scalars S r0 _ 0 P0 ltac:(lia)) as (h0 & -> & (x0 & Ex0 & X0)). cbn [rbind].
    destruct (hat_scalars S r1 _ 0 P1 ltac:(lia)) as (h1 & -> & (x1 & Ex1 & X1)). cbn [rbind].
    set (yz := ND _ _).
    assert (Eyz : shape yz = S ++ [2]) by (unfold yz; cbn [shape]; rewrite (proj1 P0), removelast_snoc; reflexivity).
    destruct (cart_to_cyl_rows yz S 2 Eyz ltac:(lia)) as (cp & -> & Ec & Hc). cbn [rbind Nat.eqb] in *. rewrite Eyz, removelast_snoc in Ec, Hc.
    rewrite Ex1, Ex0. cbn [rbind]. destruct (bop_scalars (olift2 Rminus) S x1 x0 _ _ X1 X0) as (d & -> & D). cbn [rbind].
    destruct (item_scalars S cp 2 0 Ec ltac:(lia)) as (rho & -> & Rho). cbn [rbind].
    destruct (bop_scalars (fun d r => obind d (fun d => fdiv d r)) S d rho _ _ D Rho) as (t1 & -> & T1). cbn [rbind].
    set (t' := set_item temp 1 t1).
    destruct (oitem_scalars S t' 3 0 Et ltac:(lia)) as (v0 & -> & V0). destruct (oitem_scalars S t' 3 1 Et ltac:(lia)) as (v1 & -> & V1). cbn [rbind].
    destruct (item_scalars S cp 2 1 Ec ltac:(lia)) as (phi & -> & Phi). cbn [rbind].
    set (pr := ND (shape v0) _).
    assert (Pr : scalars_of S pr (fun j => (Some 0%R, get t1 j))).
    { split; [exact (proj1 V0)|]. intros j Hj. unfold pr. cbn [get]. rewrite (proj2 V0 j Hj), (proj2 V1 j Hj). unfold t', set_item. cbn [get].
      rewrite !last_last, !removelast_snoc. cbn [Nat.eqb]. rewrite (Ht j Hj). reflexivity. }
    match goal with |- context [broadcast_op ?op pr phi] => destruct (bop_scalars op S pr phi _ _ Pr Phi) as (y & -> & Y) end. cbn [rbind].
    match goal with |- context [broadcast_op ?op pr phi] => destruct (bop_scalars op S pr phi _ _ Pr Phi) as (z & -> & Z) end. cbn [rbind].
    set (t2 := set_item (set_item t' 1 y) 2 z).
    pose (dv := fun p => match obind (fdiv (vx (mvec rot (vsub p p0))) (vnorm (mvec rot (vsub p p0)))) (fun h0 =>
                  obind (fdiv (vx (vsub (mvec rot (vsub p p0)) (V3 l 0 0))) (vnorm (vsub (mvec rot (vsub p p0)) (V3 l 0 0)))) (fun h1 =>
                  fdiv (h1 - h0) (sqrt (vy (mvec rot (vsub p p0)) ^ 2 + vz (mvec rot (vsub p p0)) ^ 2)))) with
               | None => None
               | Some t1 => let ph := atan2 (vz (mvec rot (vsub p p0))) (vy (mvec rot (vsub p p0))) in
                   Some (mvec (mtrans rot) (V3 0 (0 * cos ph - t1 * sin ph) (0 * sin ph + t1 * cos ph))%R) end).
    assert (Er : forall j, inside S j -> option_map (mvec (mtrans rot)) (orow t2 j) = dv (vec_at a j)).
    { intros j Hj. unfold orow, t2, set_item. cbn [get]. rewrite !last_last, !removelast_snoc. cbn [Nat.eqb].
      rewrite (proj2 Y j Hj), (proj2 Z j Hj). cbn [fst snd obind].
      replace (get t' (j ++ [0])) with (Some 0%R) by (unfold t', set_item; cbn [get]; rewrite last_last; cbn [Nat.eqb]; symmetry; apply Ht, Hj).
      rewrite (proj2 T1 j Hj). cbn [obind]. specialize (Hc j Hj).
      assert (Ry : row_at yz j = [vy (vec_at r0 j); vz (vec_at r0 j)]).
      { unfold row_at. rewrite Eyz, last_last. cbn [seq map]. unfold yz. cbn [get]. rewrite !last_last, !removelast_snoc. reflexivity. }
      rewrite Ry in Hc. unfold row_at in Hc. rewrite Ec, last_last in Hc. cbn [seq map cartesian_to_cylindrical length Nat.eqb] in Hc.
      rewrite (proj2 P0 j Hj) in Hc.
      pose proof (f_equal (fun r => match r with Ok [x; _] => x | _ => 0%R end) Hc) as C0. pose proof (f_equal (fun r => match r with Ok [_; x] => x | _ => 0%R end) Hc) as C1.
      cbv beta iota in C0, C1. rewrite <- C0, <- C1. unfold dv. cbn [component].
      unfold olift2. destruct (fdiv (vx (mvec rot _)) _) as [q0|]; destruct (fdiv (vx (vsub (mvec rot _) _)) _) as [q1|]; cbn [obind]; try reflexivity.
      destruct (fdiv _ _); reflexivity. }
    assert (Pd : opoints_of S (of_orows S (map (option_map (mvec (mtrans rot))) (orows t2))) (fun j => dv (vec_at a j))).
    { split; [reflexivity|]. intros ix Hi. destruct (inside_snoc S ix Hi) as (j & c & -> & Hj & Hc'). unfold of_orows, orows. cbn [get shape].
      rewrite removelast_snoc, last_last. change (shape t2) with (shape temp). rewrite Et, removelast_snoc, map_map, nth_indices by exact Hj. rewrite (Er j Hj). reflexivity. }
    destruct (add_opoints S out _ _ _ HO Pd) as (o' & -> & Ho'). cbn [rbind]. exists o', t2, dv. split; [reflexivity|]. split; [|split; [exact Ho'|]].
    - split; [exact Et|]. intros j Hj. unfold t2, t', set_item. cbn [get]. rewrite !last_last. cbn [Nat.eqb]. apply Ht. exact Hj.
    - intros p. unfold dv. cbn [cartesian_to_cylindrical length Nat.eqb rbind nth].
      destruct (fdiv (vx (mvec rot _)) _) as [q0|]; cbn [obind]; [|reflexivity]. destruct (fdiv (vx (vsub (mvec rot _) _)) _) as [q1|]; cbn [obind]; [|reflexivity].
      destruct (fdiv (q1 - q0)%R _); reflexivity.
  Qed.
  Lemma over_B segs : forall out temp o, opoints_of S out o -> temp_B temp ->
    (exists e, over_segments (seg_B_nd a) segs (out, temp) = Raise e /\ forall p q, sum_segments_B p segs q = Raise e) \/
    (exists out' temp' d, over_segments (seg_B_nd a) segs (out, temp) = Ok (out', temp') /\ opoints_of S out' d /\
      forall j, sum_segments_B (vec_at a j) segs (o j) = Ok (d j)).
  Proof.
    induction segs as [|[p0 p1] segs IH]; intros out temp o HO HT; cbn [over_segments sum_segments_B].
    - right. exists out, temp, o. split; [reflexivity|]. split; [exact HO|reflexivity].
    - destruct (seg_B_step p0 p1 out temp o HO HT) as [(e & -> & H)|(out' & temp' & d & -> & HT' & HO' & H)]; cbn [rbind].
      + left. exists e. split; [reflexivity|]. intros p q. rewrite H. reflexivity.
      + destruct (IH out' temp' _ HO' HT') as [(e & -> & H')|(o2 & t2 & d2 & -> & P2 & H')].
        * left. exists e. split; [reflexivity|]. intros p q. rewrite H. cbn [rbind]. apply H'.
        * right. exists o2, t2, d2. split; [reflexivity|]. split; [exact P2|]. intros j. rewrite H. cbn [rbind]. apply H'.
  Qed.
End WireB.
Lemma lc_B_array_ok s S a : shape a = S ++ [3] -> finite_or_nan_per_point (lc_flux_density s) a (lc_B_array s (XyzArray a)).
Proof.
  intros E. unfold lc_B_array, lc_flux_density. destruct (check_points S a E) as [-> _]. cbn [rbind]. rewrite E.
  set (z := ND (S ++ [3]) (fun _ : list nat => Some 0%R)).
  assert (Z : opoints_of S z (fun _ => Some vzero)).
  { split; [reflexivity|]. intros ix Hi. destruct (inside_snoc S ix Hi) as (j & c & -> & Hj & Hc). rewrite last_last. destruct c as [|[|[|]]]; reflexivity. }
  assert (T : temp_B S z) by (split; reflexivity).
  destruct (over_B a S E (segments (lc_nodes s)) _ _ _ Z T) as [(e & -> & H)|(o & t & d & -> & P & H)]; cbn [rbind fst].
  - left. exists e. split; [reflexivity|]. intros p. rewrite H. reflexivity.
  - right. eexists. split; [reflexivity|]. rewrite E, removelast_snoc. split; [exact (proj1 P)|]. intros j Hj. rewrite H. cbn [rbind].
    destruct (d j) as [v|] eqn:Ed; cbn [obind]; intros c Hc; unfold amap; cbn [get]; rewrite (proj2 P _ (inside_app S j c Hj Hc)), removelast_snoc, last_last, Ed; [|reflexivity].
    cbn [option_map]. f_equal. destruct c as [|[|[|]]]; [reflexivity..|lia].
Qed.
Lemma lc_H_array_ok s S a : shape a = S ++ [3] -> finite_or_nan_per_point (lc_magnetic_field s) a (lc_H_array s (XyzArray a)).
Proof.
  intros E. unfold lc_H_array, lc_magnetic_field. destruct (lc_B_array_ok s S a E) as [(e & -> & H)|(e & -> & Es & H)].
  - left. exists e. split; [reflexivity|]. intros p. rewrite H. reflexivity.
  - right. eexists. split; [reflexivity|]. split; [exact Es|]. intros j Hj. specialize (H j Hj).
    destruct (lc_flux_density s (vec_at a j)) as [[v|]|x]; cbn [rmap option_map]; [..|exact H]; intros c Hc; unfold amap; cbn [get]; rewrite (H c Hc); [|reflexivity].
    cbn [option_map]. f_equal. destruct c as [|[|[|]]]; [reflexivity..|lia].
Qed.
