(** Reshaping to rows and back, and the array evaluation of the prisms *)
From Coq Require Import String Reals List Arith Lia Lra Bool.
From Verif Require Import Vec3 Numpy Model_Utils Proof_Utils Model_Spatial Model_Static Model_Gravity Model_Prism Model_Batch Model_TDEM Model_Arrays Proof_Arrays Spec_Arrays Proof_Arrays2 Model_Arrays2 Spec_Arrays2 Proof_Arrays3 Proof_Arrays4 Model_Arrays3 Proof_Prism.
Import ListNotations.
Open Scope nat_scope.

Lemma indices_C_length s : length (indices_C s) = size s.
Proof.
  induction s as [|n s IH]; [reflexivity|]. cbn [indices_C size fold_right].
  change (fold_right Nat.mul 1 s) with (size s). rewrite <- IH. generalize 0 at 1. induction n as [|n IHn]; intros k; [reflexivity|].
  cbn [seq flat_map]. rewrite app_length, map_length, IHn. reflexivity.
Qed.
Lemma indices_C_at s ix : inside s ix -> nth_error (indices_C s) (pos_C s ix) = Some ix.
Proof.
  intros H. induction H as [|n i s ix Hi H IH]; [reflexivity|]. cbn [indices_C pos_C].
  replace (i * size s + pos_C s ix) with (pos_C s ix + size s * i) by lia.
  rewrite (nth_error_flat_map_const _ (size s) (seq 0 n) (pos_C s ix) i i).
  - rewrite nth_error_map, IH. reflexivity.
  - intros x. rewrite map_length. apply indices_C_length.
  - apply nth_error_seq. exact Hi.
  - rewrite <- indices_C_length. apply nth_error_Some. rewrite IH. discriminate.
Qed.
Lemma indices_C_inside s ix : In ix (indices_C s) -> inside s ix.
Proof.
  revert ix. induction s as [|n s IH]; intros ix H; cbn [indices_C] in H.
  - destruct H as [<-|[]]. constructor.
  - apply in_flat_map in H. destruct H as (i & Hi & H). apply in_map_iff in H. destruct H as (tl & <- & Ht). apply in_seq in Hi. constructor; [lia|apply IH; exact Ht].
Qed.
Lemma nth_indices {A} (f : list nat -> A) s j d : inside s j -> nth (pos_C s j) (map f (indices_C s)) d = f j.
Proof. intros H. apply nth_error_nth. rewrite nth_error_map, (indices_C_at s j H). reflexivity. Qed.

Lemma rows_eq S (a : nd R) : shape a = S ++ [3] -> rows a = map (vec_at a) (indices_C S).
Proof. intros E. unfold rows. rewrite E, removelast_snoc. reflexivity. Qed.
Lemma of_rows_at S (f : list nat -> vec3) : points_of S (of_rows S (map f (indices_C S))) f.
Proof.
  split; [reflexivity|]. intros j Hj. unfold of_rows. apply vec_ext. intros c Hc. rewrite comp_vec_at by exact Hc. cbn [get].
  rewrite removelast_snoc, last_last, nth_indices by exact Hj. reflexivity.
Qed.
Lemma of_entries_at {A} (d : A) S (f : list nat -> A) : scalars_of S (of_entries d S (map f (indices_C S))) f.
Proof. split; [reflexivity|]. intros j Hj. unfold of_entries. cbn [get]. apply nth_indices. exact Hj. Qed.
Lemma map_rows_points S (a : nd R) v (g : vec3 -> vec3) : points_of S a v -> points_of S (of_rows S (map g (rows a))) (fun j => g (v j)).
Proof.
  intros [E H]. rewrite (rows_eq S a E), map_map.
  replace (map (fun x => g (vec_at a x)) (indices_C S)) with (map (fun j => g (v j)) (indices_C S)); [apply of_rows_at|].
  apply map_ext_in. intros j Hj. rewrite (H j (indices_C_inside _ _ Hj)). reflexivity.
Qed.

(** ** kernels *)
Definition computes (k : kernel) (f : R -> R -> R -> R) : Prop := forall l, k l = Ok (map (fun p => f (vx p) (vy p) (vz p)) l).
Definition good (K : kernels) : Prop :=
  computes (k_f K) prism_f /\ computes (k_fz K) prism_fz /\ computes (k_fzz K) prism_fzz /\ computes (k_fzx K) prism_fzx /\ computes (k_fzy K) prism_fzy /\
  computes (k_fzzz K) prism_fzzz /\ computes (k_fxxy K) prism_fxxy /\ computes (k_fxxz K) prism_fxxz /\ computes (k_fxyz K) prism_fxyz.
Lemma compiled_good : good compiled.
Proof. unfold good, computes. cbn. unfold ufunc. tauto. Qed.
Lemma fallback_good : good fallback.
Proof.
  unfold good, computes. cbn.
  split; [intro; apply np_f_agrees|]. split; [intro; apply np_fz_agrees|]. split; [intro; apply np_fzz_agrees|]. split; [intro; apply np_fzx_agrees|].
  split; [intro; apply np_fzy_agrees|]. split; [intro; apply np_fzzz_agrees|]. split; [intro; apply np_fxxy_agrees|]. split; [intro; apply np_fxxz_agrees|].
  intro; apply np_fxyz_agrees.
Qed.
Lemma on_arrays_scalars k f S x y z u v w : computes k f -> scalars_of S x u -> scalars_of S y v -> scalars_of S z w ->
  exists r, on_arrays k x y z = Ok r /\ scalars_of S r (fun j => f (u j) (v j) (w j)).
Proof.
  intros Hk [E1 H1] [E2 H2] [E3 H3]. unfold on_arrays. rewrite Hk, E1, map_map. cbn [rbind]. eexists. split; [reflexivity|].
  replace (map _ (indices_C S)) with (map (fun j => f (u j) (v j) (w j)) (indices_C S)); [apply of_entries_at|].
  apply map_ext_in. intros j Hj. cbn [vx vy vz]. pose proof (indices_C_inside _ _ Hj) as I. rewrite H1, H2, H3 by exact I. reflexivity.
Qed.
Ltac kstep S Hk := match goal with |- context [on_arrays ?k ?x ?y ?z] =>
  let r := fresh "r" in let E := fresh "E" in let R := fresh "R" in
  match type of Hk with computes _ ?f =>
  edestruct (on_arrays_scalars k f S x y z) as (r & E & R); [exact Hk|sc|sc|sc|rewrite E; clear E; cbn [rbind]] end end.
Lemma edi_scalars b k f S a v cycle : computes k f -> points_of S a v -> cycle < 3 ->
  exists r, eval_def_int_array b k a cycle = Ok r /\ scalars_of S r (fun j => eval_def_int b f (v j) cycle).
Proof.
  intros Hk [E H] Hc. unfold eval_def_int_array. do 3 sitem E. cbv zeta.
  destruct cycle as [|[|[|]]]; [..|lia]; cbn [Nat.iter nat_rect cycled];
  do 8 kstep S Hk; do 7 sbop S;
  (match goal with R : scalars_of S ?r _ |- exists _, Ok ?r = _ /\ _ => exists r; split; [reflexivity|]; destruct R as [Er Hr]; split; [exact Er|] end);
  intros j Hj; rewrite Hr by exact Hj; rewrite <- (H j Hj); reflexivity.
Qed.
Ltac estep S P := match goal with |- context [eval_def_int_array ?b ?k ?a ?c] =>
  match goal with Hk : computes k ?f |- _ =>
  let r := fresh "g" in let E := fresh "E" in let R := fresh "G" in
  destruct (edi_scalars b k f S a _ c Hk P ltac:(lia)) as (r & E & R); rewrite E; clear E; cbn [rbind] end end.
Lemma weighted_scalars m S a b c u v w : scalars_of S a u -> scalars_of S b v -> scalars_of S c w ->
  exists r, weighted m a b c = Ok r /\ scalars_of S r (fun j => u j * vx m + v j * vy m + w j * vz m)%R.
Proof.
  intros H1 H2 H3. unfold weighted.
  pose proof (map_scalars (fun a => (a * vx m)%R) S a u H1) as K1. pose proof (map_scalars (fun a => (a * vy m)%R) S b v H2) as K2. pose proof (map_scalars (fun a => (a * vz m)%R) S c w H3) as K3.
  destruct (bop_scalars Rplus S _ _ _ _ K1 K2) as (r & -> & K). cbn [rbind].
  destruct (bop_scalars Rplus S _ _ _ _ K K3) as (q & -> & Kq). exists q. split; [reflexivity|exact Kq].
Qed.
Ltac wstep S := match goal with |- context [weighted ?m ?a ?b ?c] =>
  let r := fresh "h" in let E := fresh "E" in let R := fresh "H" in
  edestruct (weighted_scalars m S a b c) as (r & E & R); [eassumption|eassumption|eassumption|rewrite E; clear E; cbn [rbind]] end.
Lemma stack_points S x y z u v w : scalars_of S x u -> scalars_of S y v -> scalars_of S z w ->
  exists e, stack_last [x; y; z] = Ok e /\ points_of S e (fun j => V3 (u j) (v j) (w j)).
Proof. intros H1 H2 H3. destruct (stack3 S x y z u v w H1 H2 H3) as (e & E & Es & He). exists e. split; [exact E|split; assumption]. Qed.
Ltac pstack S := match goal with |- context [stack_last [?x; ?y; ?z]] =>
  let e := fresh "e" in let E := fresh "E" in let H := fresh "P" in
  edestruct (stack_points S x y z) as (e & E & H); [eassumption|eassumption|eassumption|rewrite E; clear E; cbn [rbind]] end.
Lemma stack_matrices S x y z u v w : points_of S x u -> points_of S y v -> points_of S z w ->
  exists e, stack_last [x; y; z] = Ok e /\ shape e = S ++ [3; 3] /\
  forall j p q, inside S j -> p < 3 -> q < 3 -> get e (j ++ [p; q]) = component (match q with O => u j | 1 => v j | _ => w j end) p.
Proof.
  intros [E1 H1] [E2 H2] [E3 H3]. unfold stack_last. cbn [forallb]. rewrite E1, E2, E3. unfold shape_eqb.
  destruct (list_eq_dec Nat.eq_dec (S ++ [3]) (S ++ [3])) as [_|N]; [|congruence]. cbn [andb length]. eexists. split; [reflexivity|]. cbn [shape get].
  split; [rewrite <- app_assoc; reflexivity|]. intros j p q Hj Hp Hq.
  change (j ++ [p; q]) with (j ++ [p] ++ [q]). rewrite app_assoc, removelast_snoc, last_last.
  destruct q as [|[|[|]]]; [..|lia]; cbn [nth]; rewrite <- comp_vec_at by exact Hp; [rewrite H1|rewrite H2|rewrite H3]; auto.
Qed.
Lemma amap_points k S a v : points_of S a v -> points_of S (amap (fun x => k * x)%R a) (fun j => vscal k (v j)).
Proof. intros [E H]. split; [exact E|]. intros j Hj. rewrite <- (H j Hj). reflexivity. Qed.

Section Prism.
  Variables (K : kernels) (b : box).
  Hypothesis HK : good K.
  Variables (a : nd R) (S : list nat).
  Hypothesis Ea : shape a = S ++ [3].
  Ltac start := destruct HK as (K1 & K2 & K3 & K4 & K5 & K6 & K7 & K8 & K9); destruct (check_points S a Ea) as [EC P]; rewrite EC; cbn [rbind].
  Ltac numbers := eexists; split; [reflexivity|].
  Lemma prism_potential_points G rho : one_number_per_point (gravitational_potential G b rho) a (prism_potential_array K G b rho (XyzArray a)).
  Proof.
    unfold one_number_per_point, prism_potential_array. rewrite Ea, removelast_snoc. start. estep S P. cbn [rmap]. numbers.
    destruct G0 as [Eg Hg]. split; [exact Eg|]. intros j Hj. unfold amap. cbn [get]. rewrite (Hg j Hj). reflexivity.
  Qed.
  Lemma prism_g_points G rho : one_vector_per_point (fun p => Ok (gravitational_field G b rho p)) a (prism_g_array K G b rho (XyzArray a)).
  Proof.
    unfold one_vector_per_point, prism_g_array. rewrite Ea, removelast_snoc. start. do 3 estep S P. pstack S. cbn [rmap]. numbers.
    destruct (amap_points (- G * rho) S e _ P0) as [Ee He]. split; [exact Ee|]. intros j Hj. rewrite (He j Hj). reflexivity.
  Qed.
  Lemma prism_gradient_points G rho : one_matrix_per_point (gravitational_gradient G b rho) a (prism_gradient_array K G b rho (XyzArray a)).
  Proof.
    unfold one_matrix_per_point, prism_gradient_array. rewrite Ea, removelast_snoc. start. do 6 estep S P. do 3 pstack S.
    edestruct (stack_matrices S e e0 e1) as (o & -> & Eo & Ho); [eassumption..|]. cbn [rmap]. numbers.
    split; [unfold amap; cbn [shape]; rewrite Eo, <- app_assoc; reflexivity|].
    intros j p q Hj Hp Hq. unfold amap. cbn [get]. rewrite Ho by assumption.
    destruct q as [|[|[|]]]; [..|lia]; destruct p as [|[|[|]]]; try lia; reflexivity.
  Qed.
  Lemma prism_scalar_points m : one_number_per_point (scalar_potential b m) a (prism_scalar_potential_array K b m (XyzArray a)).
  Proof.
    unfold one_number_per_point, prism_scalar_potential_array. rewrite Ea, removelast_snoc. start. do 3 estep S P. wstep S. cbn [rmap]. numbers.
    destruct H as [Eg Hg]. split; [exact Eg|]. intros j Hj. unfold amap. cbn [get]. rewrite (Hg j Hj). reflexivity.
  Qed.
  Lemma prism_H_pts m : exists e, prism_H_array K b m (XyzArray a) = Ok e /\ points_of S e (fun j => magnetic_field b m (vec_at a j)).
  Proof.
    unfold prism_H_array. start. do 6 estep S P. do 3 wstep S. pstack S. cbn [rmap]. numbers.
    destruct (amap_points (- 1 / (4 * PI)) S e _ P0) as [Ee He]. split; [exact Ee|]. intros j Hj. rewrite (He j Hj). reflexivity.
  Qed.
  Lemma prism_H_points m : one_vector_per_point (fun p => Ok (magnetic_field b m p)) a (prism_H_array K b m (XyzArray a)).
  Proof.
    destruct (prism_H_pts m) as (e & -> & Ee & He). exists e. rewrite Ea, removelast_snoc. split; [reflexivity|]. split; [exact Ee|]. intros j Hj. rewrite (He j Hj). reflexivity.
  Qed.
  Lemma prism_H_gradient_points m : one_matrix_per_point (magnetic_field_gradient b m) a (prism_H_gradient_array K b m (XyzArray a)).
  Proof.
    unfold one_matrix_per_point, prism_H_gradient_array. rewrite Ea, removelast_snoc. start. do 10 estep S P. do 6 wstep S. do 3 pstack S.
    edestruct (stack_matrices S e e0 e1) as (o & -> & Eo & Ho); [eassumption..|]. cbn [rmap]. numbers.
    split; [unfold amap; cbn [shape]; rewrite Eo, <- app_assoc; reflexivity|].
    intros j p q Hj Hp Hq. unfold amap. cbn [get]. rewrite Ho by assumption.
    destruct q as [|[|[|]]]; [..|lia]; destruct p as [|[|[|]]]; try lia; reflexivity.
  Qed.
  Lemma prism_B_points mu0 m :
    one_vector_per_point (fun p => Ok (vscal mu0 (if is_inside b p then vadd (magnetic_field b m p) m else magnetic_field b m p))) a
      (prism_B_array K mu0 b m (XyzArray a)).
  Proof.
    unfold one_vector_per_point, prism_B_array. rewrite Ea, removelast_snoc. destruct (check_points S a Ea) as [-> P]. cbn [rbind].
    destruct (prism_H_pts m) as (h & -> & Eh & Hh). cbn [rbind]. rewrite (rows_eq S h Eh), (rows_eq S a Ea), Eh, removelast_snoc.
    replace (map (vec_at h) (indices_C S)) with (map (magnetic_field b m) (map (vec_at a) (indices_C S)))
      by (rewrite map_map; apply map_ext_in; intros j Hj; symmetry; apply Hh, indices_C_inside, Hj).
    set (L := map (vec_at a) (indices_C S)). rewrite mask_select_map, map_map, mask_assign_pointwise. cbn [rbind]. numbers. unfold L. rewrite map_map.
    destruct (of_rows_at S (fun j => if is_inside b (vec_at a j) then vadd (magnetic_field b m (vec_at a j)) m else magnetic_field b m (vec_at a j))) as [Eo Ho].
    destruct (amap_points mu0 S _ _ (conj Eo Ho)) as [Eq Hq]. split; [exact Eq|]. intros j Hj. rewrite (Hq j Hj). reflexivity.
  Qed.
End Prism.

Lemma either_good K : K = compiled \/ K = fallback -> good K.
Proof. intros [-> | ->]; [apply compiled_good|apply fallback_good]. Qed.
