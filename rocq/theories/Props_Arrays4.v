(** C103: the harmonic dipoles over a half-space and a layered earth on arrays, with the squeeze *)
From Coq Require Import String Reals List Arith Lia Lra.
From Coquelicot Require Import Coquelicot.
From Verif Require Import Vec3 Cplx Numpy Model_Utils Model_Spatial Model_Static Model_FDEM Model_Layered Model_Arrays Model_Arrays2 Model_Arrays4 Spec_Arrays Spec_Arrays4 Proof_Arrays10.
From Verif Require Spec_Layered Proof_Layered3.
Import ListNotations.
Open Scope nat_scope.

(** points of two or more columns, of any shape; frequencies in an array, or one frequency and one
    point.  [iv], [kv]: any functions (scipy.special). *)
Theorem C103_half_space iv kv mu_0 s freq secondary xy (points : list nat) k : shape xy = points ++ [k] -> 2 <= k -> mh_orient s <> vzero ->
  (exists n, shape freq = [n]) \/ (shape freq = [] /\ points = []) ->
  squeezed_grid ccomponent (fun i j => mh_H iv kv mu_0 (with_freq s (get freq i)) secondary (plane_point xy j)) (shape freq) points
    (mh_H_array iv kv mu_0 s freq secondary xy).
Proof.
  intros E Hk No Hf. pose proof (mh_array_ok iv kv mu_0 s freq secondary xy points k E ltac:(lia) No Hf) as H.
  rewrite (proj2 (Nat.eqb_neq k 1)) in H by lia. exact H.
Qed.
(** the documented shape when no axis has length one: nothing is squeezed *)
Theorem C103_half_space_shape iv kv mu_0 s freq secondary xy (points : list nat) k n : shape xy = points ++ [k] -> 2 <= k -> mh_orient s <> vzero ->
  shape freq = [n] -> n <> 1 -> ~ In 1 points ->
  exists e, mh_H_array iv kv mu_0 s freq secondary xy = Ok e /\ shape e = [n] ++ points ++ [3] /\
  forall f j c, f < n -> index_of points j -> c < 3 -> get e (f :: j ++ [c]) = ccomponent (mh_H iv kv mu_0 (with_freq s (get freq [f])) secondary (plane_point xy j)) c.
Proof.
  intros E Hk No Ef N1 Np. destruct (C103_half_space iv kv mu_0 s freq secondary xy points k E Hk No) as (e & Ee & Es & Hv); [left; exists n; exact Ef|].
  rewrite Ef in Es, Hv. assert (Nf : ~ In 1 ([n] ++ points ++ [3])).
  { intros [H|H]; [congruence|]. change (In 1 (points ++ [3])) in H. apply in_app_iff in H. destruct H as [H|[H|[]]]; [exact (Np H)|discriminate]. }
  exists e. split; [exact Ee|]. split; [rewrite Es; apply no_ones_filter; exact Nf|]. intros f j c Hf Hj Hc.
  assert (If : index_of [n] [f]) by (constructor; [exact Hf|constructor]). specialize (Hv [f] j c If Hj Hc). rewrite no_ones_drop in Hv; [exact Hv|exact Nf|].
  cbn [app length]. rewrite !app_length. cbn [length]. rewrite (Proof_Utils.inside_length _ _ Hj). reflexivity.
Qed.
(** FINDING: a single number per row is not refused but taken for both coordinates *)
Theorem C103_half_space_rejects_width_one_refuted iv kv mu_0 s freq secondary xy (points : list nat) n : shape xy = points ++ [1] -> mh_orient s <> vzero ->
  shape freq = [n] ->
  squeezed_grid ccomponent (fun i j => mh_H iv kv mu_0 (with_freq s (get freq i)) secondary (V3 (get xy (j ++ [0])) (get xy (j ++ [0])) 0%R)) [n] points
    (mh_H_array iv kv mu_0 s freq secondary xy).
Proof. intros E No Ef. rewrite <- Ef. exact (mh_array_ok iv kv mu_0 s freq secondary xy points 1 E ltac:(lia) No (or_introl (ex_intro _ n Ef))). Qed.
(** the arguments that are refused *)
Theorem C103_half_space_refuses iv kv mu_0 s freq secondary xy (points : list nat) :
  (forall k, shape xy = points ++ [k] -> 2 <= k -> shape freq = [] -> points <> [] -> mh_H_array iv kv mu_0 s freq secondary xy = Raise IndexError) /\
  (shape xy = points ++ [0] -> mh_H_array iv kv mu_0 s freq secondary xy = Raise ValueError) /\
  (shape xy = [] -> mh_H_array iv kv mu_0 s freq secondary xy = Raise IndexError).
Proof.
  split; [|split].
  - intros k E Hk Ef Np. eapply mh_scalar_frequency; try eassumption. lia.
  - apply mh_width_zero.
  - intros E. unfold mh_H_array. rewrite E. reflexivity.
Qed.

(** the layered earth: receivers in rows (x, y, z) *)
Theorem C103_layered mu_0 flt s (xyz : nd R) n field : Spec_Layered.consistent s -> ly_frequency s <> [] -> hf_base flt <> [] -> shape xyz = [n; 3] -> 0 < n ->
  (forall k, k < n -> (0 <= vz (vec_at xyz [k]))%R) ->
  exists value, (forall f k, f < n_frequency s -> k < n ->
      exists r, magnetic_field mu_0 flt (Spec_Layered.single s f) [vec_at xyz [k]] field = Ok r /\ value [f] [k] = Spec_Layered.entry r 0 0) /\
    squeezed_grid (fun v c => option_map (fun h => ccomponent h c) v) value [n_frequency s] [n] (ly_H_array mu_0 flt s xyz field).
Proof. exact (ly_array_ok mu_0 flt s xyz n field). Qed.
(** one receiver is still a row of a table; a bare (x, y, z) is refused *)
Theorem C103_layered_refuses mu_0 flt s (xyz : nd R) field :
  (length (shape xyz) = 1 -> ly_H_array mu_0 flt s xyz field = Raise IndexError) /\
  (forall n k, shape xyz = [n; k] -> k < 3 -> ly_H_array mu_0 flt s xyz field = Raise IndexError) /\
  (forall n k, shape xyz = [n; k] -> 3 < k -> ly_H_array mu_0 flt s xyz field = Raise ValueError) /\
  (forall n k i, shape xyz = [n; k] -> 3 <= k -> i < n -> (get xyz [i; 2%nat] < 0)%R -> ly_H_array mu_0 flt s xyz field = Raise ValueError).
Proof. exact (ly_array_rejects mu_0 flt s xyz field). Qed.

(** the squeeze hides which axis was which: one frequency at m points and m frequencies at one
    point give arrays of one shape *)
Theorem C103_squeezed_shape_is_ambiguous iv kv mu_0 s secondary f1 x1 f2 x2 m : mh_orient s <> vzero ->
  shape f1 = [1] -> shape x1 = [m; 2] -> shape f2 = [m] -> shape x2 = [1; 2] ->
  exists e1 e2, mh_H_array iv kv mu_0 s f1 secondary x1 = Ok e1 /\ mh_H_array iv kv mu_0 s f2 secondary x2 = Ok e2 /\ shape e1 = shape e2.
Proof.
  intros No F1 X1 F2 X2.
  destruct (C103_half_space iv kv mu_0 s f1 secondary x1 [m] 2 X1 ltac:(lia) No) as (e1 & E1 & S1 & _); [left; exists 1; exact F1|].
  destruct (C103_half_space iv kv mu_0 s f2 secondary x2 [1] 2 X2 ltac:(lia) No) as (e2 & E2 & S2 & _); [left; exists m; exact F2|].
  exists e1, e2. split; [exact E1|]. split; [exact E2|]. rewrite S1, S2, F1, F2. cbn [app filter Nat.eqb negb]. destruct (negb (m =? 1)); reflexivity.
Qed.

Example C103_squeeze_example : drop_unit_axes [1; 4; 1; 3] [0; 2; 0; 1] = [2; 1] /\ index_of [1; 4; 1; 3] [0; 2; 0; 1] /\
  shape (squeeze (ND [1; 4; 1; 3] (fun _ => 0%R))) = [4; 3].
Proof. split; [reflexivity|]. split; [repeat constructor|reflexivity]. Qed.
Example C103_witness : let s := MH (FD 1 1 1 1 PyTrue) 1 (V3 0 0 1) vzero in let xy := ND [2; 4; 2] (fun ix => INR (hd 0 ix)) in let freq := ND [5] (fun ix => INR (hd 0 ix)) in
  mh_orient s <> vzero /\ shape xy = [2; 4] ++ [2] /\ shape freq = [5] /\ ~ In 1 [2; 4].
Proof. cbv zeta. split; [intros H; injection H; lra|]. split; [reflexivity|]. split; [reflexivity|]. intros [H|[H|[]]]; discriminate. Qed.
Example C103_layered_witness : let s := LY [1; 10]%R [5]%R (P1 [RtoC 1; RtoC 1]) (P1 [RtoC 1; RtoC 1]) (P1 [RtoC 1; RtoC 1]) false (V3 0 0 1) (V3 0 0 1) 1 in
  let xyz := ND [2; 3] (fun ix => match ix with [i; 0] => INR (i + 1) | _ => 0%R end) in
  Spec_Layered.consistent s /\ ly_frequency s <> [] /\ shape xyz = [2; 3] /\ (forall k, k < 2 -> (0 <= vz (vec_at xyz [k]))%R).
Proof. cbv zeta. split; [repeat split|]. split; [discriminate|]. split; [reflexivity|]. intros k _. cbn. lra. Qed.
Print Assumptions C103_half_space.
Print Assumptions C103_half_space_shape.
Print Assumptions C103_half_space_rejects_width_one_refuted.
Print Assumptions C103_half_space_refuses.
Print Assumptions C103_layered.
Print Assumptions C103_layered_refuses.
Print Assumptions C103_squeezed_shape_is_ambiguous.
