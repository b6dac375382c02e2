(** Array evaluation of the static and gravity sources *)
From Coq Require Import String Reals List Arith Lia Lra Bool.
From Verif Require Import Vec3 Numpy Model_Utils Proof_Utils Model_Spatial Model_Static Model_Gravity Model_TDEM Model_Arrays Proof_Arrays Spec_Arrays Proof_Arrays2 Model_Arrays2 Spec_Arrays2 Proof_Arrays3.
Import ListNotations.
Open Scope nat_scope.

Ltac endpoints S := match goal with R : rep [] S ?r _ _ |- exists e, Ok ?r = Ok e /\ points_of S e _ =>
    exists r; split; [reflexivity|]; apply (rep_points_of S _ _ _ _ R); [intros n L; cbv beta; lia|];
    intros j c _ Hc; cbv beta; destruct c as [|[|[|c]]]; [..|exfalso; lia] end.

Lemma md_A_points s S a v : points_of S a v -> exists e, md_A_array s a = Ok e /\ points_of S e (fun j => md_A s (v j)).
Proof. intros H. unfold md_A_array. prestep (@nil nat) S. prestep (@nil nat) S. bstep (@nil nat) S. endpoints S; reflexivity. Qed.
Lemma md_B_points s S a v : points_of S a v -> exists e, md_B_array s a = Ok e /\ points_of S e (fun j => md_B s (v j)).
Proof. intros H. unfold md_B_array. prestep (@nil nat) S. prestep (@nil nat) S. do 3 bstep (@nil nat) S. endpoints S; reflexivity. Qed.
Lemma mp_B_points s S a v : points_of S a v -> exists e, mp_B_array s a = Ok e /\ points_of S e (fun j => mp_B s (v j)).
Proof. intros H. unfold mp_B_array. prestep (@nil nat) S. prestep (@nil nat) S. bstep (@nil nat) S. endpoints S; reflexivity. Qed.

Lemma wc_points (f : nd R -> result (nd R)) g coordinates S a :
  (forall b v, points_of S b v -> exists e, f b = Ok e /\ points_of S e (fun j => g (v j))) ->
  lower coordinates = "cartesian"%string \/ lower coordinates = "cylindrical"%string -> shape a = S ++ [3] ->
  one_vector_per_point (with_coordinates (fun p => Ok (g p)) coordinates) a (with_coordinates_array f coordinates (XyzArray a)).
Proof.
  intros Hf [C|C] E; unfold one_vector_per_point, with_coordinates_array, with_coordinates; rewrite E, removelast_snoc, C; cbn [String.eqb Ascii.eqb Bool.eqb orb negb];
    destruct (check_points S a E) as [-> P]; cbn [rbind].
  - destruct (Hf a _ P) as (e & -> & Ee & He). cbn [rbind]. exists e. split; [reflexivity|]. split; [exact Ee|]. intros j Hj. rewrite (He j Hj). reflexivity.
  - destruct (cyl_to_cart_rows a S 3 E ltac:(lia)) as (c & -> & Ec & Hc). cbn [rbind Nat.eqb] in *. rewrite E, removelast_snoc in Ec, Hc.
    assert (Pc : points_of S c (vec_at c)) by (split; [exact Ec|reflexivity]).
    destruct (Hf c _ Pc) as (e & -> & Ee & He). cbn [rbind].
    destruct (cart_to_cyl_vec_rows c e S 3 3 Ec ltac:(lia) Ee ltac:(lia) ltac:(lia)) as (o & -> & Eo & Ho). cbn [Nat.eqb] in *. rewrite Ec, removelast_snoc in Eo, Ho.
    exists o. split; [reflexivity|]. split; [exact Eo|]. intros j Hj. specialize (Hc j Hj). specialize (Ho j Hj).
    rewrite (row_of_vec_at S _ _ E) in Hc. rewrite (row_of_vec_at S _ _ Ec) in Hc, Ho. rewrite (row_of_vec_at S _ _ Ee), (row_of_vec_at S _ _ Eo), (He j Hj) in Ho.
    rewrite Hc. cbn [rbind]. change (as_vec3 (row_of (vec_at c j))) with (vec_at c j). rewrite Ho. reflexivity.
Qed.
Lemma wc_rejects_name f coordinates xyz : lower coordinates <> "cartesian"%string -> lower coordinates <> "cylindrical"%string ->
  with_coordinates_array f coordinates xyz = Raise AssertionError.
Proof. intros H1 H2. unfold with_coordinates_array. apply String.eqb_neq in H1, H2. rewrite H1, H2. reflexivity. Qed.
Lemma div_vector f k xyz out : one_vector_per_point f xyz out ->
  one_vector_per_point (fun p => rmap (fun b => vdiv b k) (f p)) xyz (rmap (amap (fun b => b / k)%R) out).
Proof.
  intros (e & -> & E & H). cbn [rmap]. eexists. split; [reflexivity|]. split; [exact E|]. intros j Hj. rewrite (H j Hj). reflexivity.
Qed.
Lemma scal_vector f k xyz out : one_vector_per_point f xyz out ->
  one_vector_per_point (fun p => rmap (vscal k) (f p)) xyz (rmap (amap (fun b => k * b)%R) out).
Proof.
  intros (e & -> & E & H). cbn [rmap]. eexists. split; [reflexivity|]. split; [exact E|]. intros j Hj. rewrite (H j Hj). reflexivity.
Qed.

Ltac mapsc := match goal with |- scalars_of ?S (amap ?f _) _ => refine (map_scalars f S _ _ _) end.
Ltac mapr S f := match goal with |- context [amap _ ?x] => match goal with Q : rep [] S x _ _ |- _ => pose proof (rep_map [] S f _ _ _ Q) end end.
(** ** line currents *)
Lemma lc_V_scalars s S a : shape a = S ++ [3] -> exists e, lc_V_array s (XyzArray a) = Ok e /\ scalars_of S e (fun j => lc_scalar_potential s (vec_at a j)).
Proof.
  intros E. unfold lc_V_array, lc_scalar_potential. destruct (check_points S a E) as [-> P]. cbn [rbind].
  destruct (Nat.eqb (n_segments s) 0); [|destruct (vall_eq (last_node s) (first_node s))].
  - prestep (@nil nat) S. eexists. split; [reflexivity|]. mapsc. exact (norm_scalars S _ _ K).
  - destruct (item_scalars S a 3 0 E ltac:(lia)) as (r & -> & [Er _]). cbn [rbind]. eexists. split; [reflexivity|]. split; [exact Er|reflexivity].
  - prestep (@nil nat) S. destruct (sub_points S a (vec_at a) (first_node s) P) as (rw & -> & K2). cbn [rbind].
    sbop S. eexists. split; [reflexivity|]. mapsc. eassumption.
Qed.
Lemma lc_E_points s S a : shape a = S ++ [3] -> exists e, lc_E_array s (XyzArray a) = Ok e /\ points_of S e (fun j => lc_electric_field s (vec_at a j)).
Proof.
  intros E. unfold lc_E_array, lc_electric_field. destruct (check_points S a E) as [-> P]. cbn [rbind].
  destruct (Nat.eqb (n_segments s) 0); [|destruct (vall_eq (last_node s) (first_node s))].
  - prestep (@nil nat) S. bstep (@nil nat) S. mapr S (fun q => (lc_current s / (4 * PI * lc_sigma s) * q)%R). endpoints S; reflexivity.
  - eexists. split; [reflexivity|]. split; [exact E|]. reflexivity.
  - prestep (@nil nat) S. destruct (sub_points S a (vec_at a) (first_node s) P) as (rw & -> & K2). cbn [rbind].
    do 3 bstep (@nil nat) S. mapr S (fun q => (lc_current s / (4 * PI * lc_sigma s) * q)%R). endpoints S; reflexivity.
Qed.

(** ** half-space *)
Lemma indices_all s ix : In ix (indices_F s) <-> inside s ix.
Proof.
  split; [|intros H; apply (nth_error_In _ _ (indices_F_at s ix H))].
  revert ix. induction s as [|n s IH]; intros ix H; cbn [indices_F] in H.
  - destruct H as [<-|[]]. constructor.
  - apply in_flat_map in H. destruct H as (tl & Ht & H). apply in_map_iff in H. destruct H as (i & <- & Hi). apply in_seq in Hi. constructor; [lia|apply IH; exact Ht].
Qed.
Lemma above_false S (a : nd R) : shape a = S ++ [3] -> (forall j, index_of S j -> (vz (vec_at a j) <= 0)%R) -> any_above_nd a = false.
Proof.
  intros E H. unfold any_above_nd. rewrite E, removelast_snoc. apply Bool.not_true_is_false. intros K. apply existsb_exists in K.
  destruct K as (j & Hj & K). apply indices_all in Hj. apply Rltb_true in K. specialize (H j Hj). cbn [vec_at vz] in H. unfold vec_at in H. cbn [vz] in H. lra.
Qed.
Lemma above_true S (a : nd R) j : shape a = S ++ [3] -> index_of S j -> (0 < vz (vec_at a j))%R -> any_above_nd a = true.
Proof.
  intros E Hj H. unfold any_above_nd. rewrite E, removelast_snoc. apply existsb_exists. exists j. split; [apply indices_all; exact Hj|]. apply Rltb_true. exact H.
Qed.
Lemma add_points S a b v w : points_of S a v -> points_of S b w -> forall op f,
  (forall p q c, c < 3 -> op (component p c) (component q c) = component (f p q) c) ->
  exists r, broadcast_op op a b = Ok r /\ points_of S r (fun j => f (v j) (w j)).
Proof.
  intros H1 H2 op f Hf. destruct (rep_bop [] S op a b _ _ _ _ (points_rep S [] a v H1) (points_rep S [] b w H2)) as (r & E & R).
  exists r. split; [exact E|]. apply (rep_points_of S _ _ _ _ R); [intros n L; left; exact L|]. intros j c _ Hc. cbv beta. apply Hf; exact Hc.
Qed.
Lemma plus_op p q c : c < 3 -> (component p c + component q c)%R = component (vadd p q) c.
Proof. intros H. destruct c as [|[|[|c]]]; [reflexivity..|lia]. Qed.
Lemma minus_op p q c : c < 3 -> (component p c - component q c)%R = component (vsub p q) c.
Proof. intros H. destruct c as [|[|[|c]]]; [reflexivity..|lia]. Qed.
Lemma hs_V_scalars s S a : shape a = S ++ [3] -> any_above_nd a = false ->
  exists e, hs_V_array s (XyzArray a) = Ok e /\ scalars_of S e (fun j => hs_V s (vec_at a j)).
Proof.
  intros E N. unfold hs_V_array. destruct (check_points S a E) as [-> P]. cbn [rbind]. rewrite N.
  destruct (lc_V_scalars (hs_primary s) S a E) as (p & -> & Hp). destruct (lc_V_scalars (hs_image s) S a E) as (i & -> & Hi). cbn [rbind].
  destruct (bop_scalars Rplus S p i _ _ Hp Hi) as (e & -> & He). exists e. split; [reflexivity|exact He].
Qed.
Lemma hs_E_points s S a : shape a = S ++ [3] -> any_above_nd a = false ->
  exists e, hs_E_array s (XyzArray a) = Ok e /\ points_of S e (fun j => hs_E s (vec_at a j)).
Proof.
  intros E N. unfold hs_E_array. destruct (check_points S a E) as [-> P]. cbn [rbind]. rewrite N.
  destruct (lc_E_points (hs_primary s) S a E) as (p & -> & Hp). destruct (lc_E_points (hs_image s) S a E) as (i & -> & Hi). cbn [rbind].
  destruct (add_points S p i _ _ Hp Hi Rplus vadd plus_op) as (e & -> & He). exists e. split; [reflexivity|exact He].
Qed.

(** ** gravity *)
Lemma pm_u_scalars s S a : shape a = S ++ [3] -> exists e, pm_potential_array s (XyzArray a) = Ok e /\ scalars_of S e (fun j => pm_potential s (vec_at a j)).
Proof.
  intros E. unfold pm_potential_array. destruct (check_points S a E) as [-> P]. cbn [rbind]. prestep (@nil nat) S.
  eexists. split; [reflexivity|]. mapsc. exact (norm_scalars S _ _ K).
Qed.
Lemma pm_g_points s S a : shape a = S ++ [3] -> exists e, pm_field_array s (XyzArray a) = Ok e /\ points_of S e (fun j => pm_field s (vec_at a j)).
Proof.
  intros E. unfold pm_field_array. destruct (check_points S a E) as [-> P]. cbn [rbind]. prestep (@nil nat) S. prestep (@nil nat) S. bstep (@nil nat) S. endpoints S; reflexivity.
Qed.
