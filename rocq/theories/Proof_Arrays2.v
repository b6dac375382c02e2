(** Array evaluation of the dipoles and plane waves *)
From Coq Require Import Reals List Arith Lia.
From Coquelicot Require Import Coquelicot.
From Verif Require Import Vec3 Cplx Numpy Model_Utils Proof_Utils Model_Spatial Model_Static Model_FDEM Model_TDEM Model_Arrays Proof_Arrays Spec_Arrays.
Import ListNotations.
Open Scope nat_scope.

Lemma comp_vec_at a j c : c < 3 -> component (vec_at a j) c = get a (j ++ [c]).
Proof. intros H. destruct c as [|[|[|c]]]; [reflexivity..|lia]. Qed.
Lemma vec_ext v w : (forall c, c < 3 -> component v c = component w c) -> v = w.
Proof. intros H. apply vec3_eq; [apply (H 0)|apply (H 1)|apply (H 2)]; lia. Qed.

Lemma removelast_snoc {A} (l : list A) x : removelast (l ++ [x]) = l.
Proof. rewrite removelast_app by discriminate. cbn. apply app_nil_r. Qed.

Section Points.
  Variables (S : list nat).
  Definition points_of (a : nd R) (v : list nat -> vec3) : Prop :=
    shape a = S ++ [3] /\ forall j, inside S j -> vec_at a j = v j.
  Lemma points_rep F a v : points_of a v -> rep F S a (fun i j c => component (v j) c) (fun n => n <= length S).
  Proof. intros [E H]. apply (rep_points F S a (fun j c => component (v j) c) E). intros j c Hj Hc. rewrite <- (H j Hj), comp_vec_at by exact Hc. reflexivity. Qed.
  Lemma rep_norm F a v : points_of a v -> rep F S (norm_keep a) (fun i j c => vnorm (v j)) (fun n => 1 <= n <= length S).
  Proof.
    intros [E H]. apply (rep_column F S (norm_keep a) (fun j => vnorm (v j))).
    - unfold norm_keep. cbn [shape]. rewrite E, removelast_snoc. reflexivity.
    - intros j Hj. unfold norm_keep. cbn [get]. rewrite removelast_snoc, (H j Hj). reflexivity.
  Qed.
  Lemma rep_third F a v : points_of a v -> rep F S (third a) (fun i j c => vz (v j)) (fun n => 1 <= n <= length S).
  Proof.
    intros [E H]. apply (rep_column F S (third a) (fun j => vz (v j))).
    - unfold third. cbn [shape]. rewrite E, removelast_snoc. reflexivity.
    - intros j Hj. unfold third. cbn [get]. rewrite removelast_snoc, <- (H j Hj). reflexivity.
  Qed.
  Lemma rep_dot F a v o : points_of a v -> rep F S (newaxis (dot_last a o)) (fun i j c => vdot (v j) o) (fun n => 1 <= n <= length S).
  Proof.
    intros [E H]. apply (rep_column F S _ (fun j => vdot (v j) o)).
    - unfold newaxis, dot_last. cbn [shape]. rewrite E, removelast_snoc. reflexivity.
    - intros j Hj. unfold newaxis, dot_last. cbn [get]. rewrite removelast_snoc, <- (H j Hj). reflexivity.
  Qed.
  Lemma cross_l_points a v o : points_of a v -> points_of (cross_l o a) (fun j => vcross o (v j)).
  Proof.
    intros [E H]. split; [exact E|]. intros j Hj. apply vec_ext. intros c Hc. rewrite comp_vec_at by exact Hc.
    unfold cross_l. cbn [get]. rewrite removelast_snoc, last_last, (H j Hj). reflexivity.
  Qed.
  Lemma cross_r_points a v o : points_of a v -> points_of (cross_r a o) (fun j => vcross (v j) o).
  Proof.
    intros [E H]. split; [exact E|]. intros j Hj. apply vec_ext. intros c Hc. rewrite comp_vec_at by exact Hc.
    unfold cross_r. cbn [get]. rewrite removelast_snoc, last_last, (H j Hj). reflexivity.
  Qed.
  Lemma rep_points_of a phi v P : rep [] S a phi P -> (forall n, n <= length S -> P n) ->
    (forall j c, inside S j -> c < 3 -> phi [] j c = component (v j) c) -> points_of a v.
  Proof.
    intros R HP HV. destruct (rep_exact [] S a phi P R) as [E H].
    - intros n L. apply HP. rewrite app_length in L. cbn in L. rewrite app_length in L. cbn in L. lia.
    - split; [exact E|]. intros j Hj. apply vec_ext. intros c Hc. rewrite comp_vec_at by exact Hc.
      rewrite (H [] j c (Forall2_nil _) Hj Hc : get a (j ++ [c]) = _). apply HV; assumption.
  Qed.
  Lemma sub_points a v p : points_of a v -> exists r, broadcast_op Rminus a (vec_nd p) = Ok r /\ points_of r (fun j => vsub (v j) p).
  Proof.
    intros H. destruct (rep_bop [] S Rminus a (vec_nd p) _ _ _ _ (points_rep [] a v H) (rep_vec [] S p)) as (r & E & R).
    exists r. split; [exact E|]. apply (rep_points_of _ _ _ _ R); [intros n L; left; exact L|].
    intros j c _ Hc. cbv beta. destruct c as [|[|[|c]]]; [reflexivity..|lia].
  Qed.
  Lemma div_points a v : points_of a v -> exists r, broadcast_op Rdiv a (norm_keep a) = Ok r /\ points_of r (fun j => vdiv (v j) (vnorm (v j))).
  Proof.
    intros H. destruct (rep_bop [] S Rdiv a (norm_keep a) _ _ _ _ (points_rep [] a v H) (rep_norm [] a v H)) as (r & E & R).
    exists r. split; [exact E|]. apply (rep_points_of _ _ _ _ R); [intros n L; left; exact L|].
    intros j c _ Hc. cbv beta. destruct c as [|[|[|c]]]; [reflexivity..|lia].
  Qed.
  Lemma ndim_norm a v : points_of a v -> ndim (norm_keep a) = Datatypes.S (length S).
  Proof. intros [E _]. unfold ndim, norm_keep. cbn [shape]. rewrite E, removelast_snoc, app_length. cbn. lia. Qed.
  Lemma ndim_points a v : points_of a v -> ndim a = Datatypes.S (length S).
  Proof. intros [E _]. unfold ndim. rewrite E, app_length. cbn. lia. Qed.
  Lemma check_points (a : nd R) : shape a = S ++ [3] -> check_xyz_dim (XyzArray a) 3 = Ok a /\ points_of a (vec_at a).
  Proof.
    intros E. split; [|split; [exact E|reflexivity]]. unfold check_xyz_dim. cbn [rbind]. rewrite E, rev_app_distr. reflexivity.
  Qed.
End Points.

Ltac reptac := first
  [ eassumption
  | apply rep_map; reptac
  | apply rep_vec
  | eapply rep_norm; eassumption
  | eapply rep_third; eassumption
  | eapply rep_dot; eassumption
  | eapply points_rep; first [eassumption | eapply cross_l_points; eassumption | eapply cross_r_points; eassumption]
  | apply rep_append; [reflexivity | first [eapply ndim_norm; eassumption | eapply ndim_points; eassumption]] ].
Ltac bstep F S := match goal with |- context [broadcast_op ?op ?a ?b] =>
  let r := fresh "r" in let E := fresh "E" in let R := fresh "R" in
  edestruct (rep_bop F S op a b) as (r & E & R); [reptac | reptac | rewrite E; clear E; cbn [rbind]] end.
Ltac prestep F S := match goal with
  | H : points_of S ?a ?v |- context [broadcast_op Rminus ?a (vec_nd ?p)] =>
      let r := fresh "rv" in let E := fresh "E" in let K := fresh "K" in
      destruct (sub_points S a v p H) as (r & E & K); rewrite E; clear E; cbn [rbind]
  | H : points_of S ?a ?v |- context [broadcast_op Rdiv ?a (norm_keep ?a)] =>
      let r := fresh "rh" in let E := fresh "E" in let K := fresh "K" in
      destruct (div_points S a v H) as (r & E & K); rewrite E; clear E; cbn [rbind]
  end.
Ltac finish F S :=
  match goal with R : rep F S ?r _ _ |- exists e, Ok ?r = Ok e /\ _ =>
    exists r; split; [reflexivity|];
    let E := fresh "E" in let H := fresh "H" in
    destruct (rep_exact F S r _ _ R) as [E H]; [intros n L; cbv beta; rewrite !app_length in L; cbn in L; lia|];
    split; [exact E|]; intros i j c Hi Hj Hc; rewrite H by assumption; clear - Hc; cbv beta
  end.

Ltac comps := match goal with c : nat |- _ => destruct c as [|[|[|c]]]; [..|exfalso; lia] end.
Lemma map_grid {A V} (entry : V -> nat -> A) value value' g axis xyz out :
  (forall f p c, c < 3 -> entry (value' f p) c = g (entry (value f p) c)) ->
  is_grid_of entry value axis xyz out -> is_grid_of entry value' axis xyz (rmap (amap g) out).
Proof.
  intros H (e & -> & E & K). exists (amap g e). split; [reflexivity|]. split; [exact E|].
  intros i j c Hi Hj Hc. unfold amap. cbn [get]. rewrite H by exact Hc. f_equal. apply K; assumption.
Qed.

Lemma ed_A_grid : forall (s : edip) axis xyz S, shape xyz = S ++ [3] -> is_grid_of ccomponent (fun f p => ed_A (ed_at s f) p) axis xyz (ed_A_array s axis (XyzArray xyz)).
Proof.
  intros s axis xyz S HS. unfold is_grid_of, index_of. rewrite HS, removelast_snoc. destruct (check_points S xyz HS) as [HC HP].
  unfold ed_A_array. rewrite HC. cbn [rbind]. cbv zeta. unfold dipole_terms_array. cbv zeta. set (F := shape axis).
  repeat prestep F S. repeat bstep F S. finish F S. comps; reflexivity.
Qed.
Lemma ed_E_grid : forall (s : edip) axis xyz S, shape xyz = S ++ [3] -> is_grid_of ccomponent (fun f p => ed_E (ed_at s f) p) axis xyz (ed_E_array s axis (XyzArray xyz)).
Proof.
  intros s axis xyz S HS. unfold is_grid_of, index_of. rewrite HS, removelast_snoc. destruct (check_points S xyz HS) as [HC HP].
  unfold ed_E_array. rewrite HC. cbn [rbind]. cbv zeta. unfold dipole_terms_array. cbv zeta. set (F := shape axis).
  repeat prestep F S. repeat bstep F S. finish F S. comps; reflexivity.
Qed.
Lemma ed_J_grid : forall (s : edip) axis xyz S, shape xyz = S ++ [3] -> is_grid_of ccomponent (fun f p => ed_J (ed_at s f) p) axis xyz (ed_J_array s axis (XyzArray xyz)).
Proof.
  intros s axis xyz S HS. unfold ed_J_array. eapply map_grid; [|apply ed_E_grid with S; exact HS]. intros f p c Hc. comps; reflexivity.
Qed.
Lemma ed_H_grid : forall (s : edip) axis xyz S, shape xyz = S ++ [3] -> is_grid_of ccomponent (fun f p => ed_H (ed_at s f) p) axis xyz (ed_H_array s axis (XyzArray xyz)).
Proof.
  intros s axis xyz S HS. unfold is_grid_of, index_of. rewrite HS, removelast_snoc. destruct (check_points S xyz HS) as [HC HP].
  unfold ed_H_array. rewrite HC. cbn [rbind]. cbv zeta. unfold dipole_terms_array. cbv zeta. set (F := shape axis).
  repeat prestep F S. repeat bstep F S. finish F S. comps; reflexivity.
Qed.
Lemma ed_B_grid : forall (s : edip) axis xyz S, shape xyz = S ++ [3] -> is_grid_of ccomponent (fun f p => ed_B (ed_at s f) p) axis xyz (ed_B_array s axis (XyzArray xyz)).
Proof.
  intros s axis xyz S HS. unfold ed_B_array. eapply map_grid; [|apply ed_H_grid with S; exact HS]. intros f p c Hc. comps; reflexivity.
Qed.
Lemma mf_A_grid : forall (s : mdip) axis xyz S, shape xyz = S ++ [3] -> is_grid_of ccomponent (fun f p => mf_A (mf_at s f) p) axis xyz (mf_A_array s axis (XyzArray xyz)).
Proof.
  intros s axis xyz S HS. unfold is_grid_of, index_of. rewrite HS, removelast_snoc. destruct (check_points S xyz HS) as [HC HP].
  unfold mf_A_array. rewrite HC. cbn [rbind]. cbv zeta. unfold dipole_terms_array. cbv zeta. set (F := shape axis).
  repeat prestep F S. repeat bstep F S. finish F S. comps; reflexivity.
Qed.
Lemma mf_E_grid : forall (s : mdip) axis xyz S, shape xyz = S ++ [3] -> is_grid_of ccomponent (fun f p => mf_E (mf_at s f) p) axis xyz (mf_E_array s axis (XyzArray xyz)).
Proof.
  intros s axis xyz S HS. unfold is_grid_of, index_of. rewrite HS, removelast_snoc. destruct (check_points S xyz HS) as [HC HP].
  unfold mf_E_array. rewrite HC. cbn [rbind]. cbv zeta. unfold dipole_terms_array. cbv zeta. set (F := shape axis).
  repeat prestep F S. repeat bstep F S. finish F S. comps; reflexivity.
Qed.
Lemma mf_J_grid : forall (s : mdip) axis xyz S, shape xyz = S ++ [3] -> is_grid_of ccomponent (fun f p => mf_J (mf_at s f) p) axis xyz (mf_J_array s axis (XyzArray xyz)).
Proof.
  intros s axis xyz S HS. unfold mf_J_array. eapply map_grid; [|apply mf_E_grid with S; exact HS]. intros f p c Hc. comps; reflexivity.
Qed.
Lemma mf_H_grid : forall (s : mdip) axis xyz S, shape xyz = S ++ [3] -> is_grid_of ccomponent (fun f p => mf_H (mf_at s f) p) axis xyz (mf_H_array s axis (XyzArray xyz)).
Proof.
  intros s axis xyz S HS. unfold is_grid_of, index_of. rewrite HS, removelast_snoc. destruct (check_points S xyz HS) as [HC HP].
  unfold mf_H_array. rewrite HC. cbn [rbind]. cbv zeta. unfold dipole_terms_array. cbv zeta. set (F := shape axis).
  repeat prestep F S. repeat bstep F S. finish F S. comps; reflexivity.
Qed.
Lemma mf_B_grid : forall (s : mdip) axis xyz S, shape xyz = S ++ [3] -> is_grid_of ccomponent (fun f p => mf_B (mf_at s f) p) axis xyz (mf_B_array s axis (XyzArray xyz)).
Proof.
  intros s axis xyz S HS. unfold mf_B_array. eapply map_grid; [|apply mf_H_grid with S; exact HS]. intros f p c Hc. comps; reflexivity.
Qed.
Lemma pw_E_grid : forall (s : pwave) axis xyz S, shape xyz = S ++ [3] -> is_grid_of ccomponent (fun f p => pw_E (pw_at s f) p) axis xyz (pw_E_array s axis (XyzArray xyz)).
Proof.
  intros s axis xyz S HS. unfold is_grid_of, index_of. rewrite HS, removelast_snoc. destruct (check_points S xyz HS) as [HC HP].
  unfold pw_E_array. rewrite HC. cbn [rbind]. cbv zeta. unfold dipole_terms_array. cbv zeta. set (F := shape axis).
  repeat prestep F S. repeat bstep F S. finish F S. comps; reflexivity.
Qed.
Lemma pw_J_grid : forall (s : pwave) axis xyz S, shape xyz = S ++ [3] -> is_grid_of ccomponent (fun f p => pw_J (pw_at s f) p) axis xyz (pw_J_array s axis (XyzArray xyz)).
Proof.
  intros s axis xyz S HS. unfold pw_J_array. eapply map_grid; [|apply pw_E_grid with S; exact HS]. intros f p c Hc. comps; reflexivity.
Qed.
Lemma pw_B_grid : forall (s : pwave) axis xyz S, shape xyz = S ++ [3] -> is_grid_of ccomponent (fun f p => pw_B (pw_at s f) p) axis xyz (pw_B_array s axis (XyzArray xyz)).
Proof.
  intros s axis xyz S HS. unfold is_grid_of, index_of. rewrite HS, removelast_snoc. destruct (check_points S xyz HS) as [HC HP].
  unfold pw_B_array. rewrite HC. cbn [rbind]. cbv zeta. unfold dipole_terms_array. cbv zeta. set (F := shape axis).
  repeat prestep F S. repeat bstep F S. finish F S. comps; reflexivity.
Qed.
Lemma pw_H_grid : forall (s : pwave) axis xyz S, shape xyz = S ++ [3] -> is_grid_of ccomponent (fun f p => pw_H (pw_at s f) p) axis xyz (pw_H_array s axis (XyzArray xyz)).
Proof.
  intros s axis xyz S HS. unfold pw_H_array. eapply map_grid; [|apply pw_B_grid with S; exact HS]. intros f p c Hc. comps; reflexivity.
Qed.
Lemma te_A_grid : forall (s : tedip) axis xyz S, shape xyz = S ++ [3] -> is_grid_of component (fun f p => te_A (te_at s f) p) axis xyz (te_A_array s axis (XyzArray xyz)).
Proof.
  intros s axis xyz S HS. unfold is_grid_of, index_of. rewrite HS, removelast_snoc. destruct (check_points S xyz HS) as [HC HP].
  unfold te_A_array. rewrite HC. cbn [rbind]. cbv zeta. unfold dipole_terms_array. cbv zeta. set (F := shape axis).
  repeat prestep F S. repeat bstep F S. finish F S. comps; reflexivity.
Qed.
Lemma te_E_grid : forall (s : tedip) axis xyz S, shape xyz = S ++ [3] -> is_grid_of component (fun f p => te_E (te_at s f) p) axis xyz (te_E_array s axis (XyzArray xyz)).
Proof.
  intros s axis xyz S HS. unfold is_grid_of, index_of. rewrite HS, removelast_snoc. destruct (check_points S xyz HS) as [HC HP].
  unfold te_E_array. rewrite HC. cbn [rbind]. cbv zeta. unfold dipole_terms_array. cbv zeta. set (F := shape axis).
  repeat prestep F S. repeat bstep F S. finish F S. comps; reflexivity.
Qed.
Lemma te_J_grid : forall (s : tedip) axis xyz S, shape xyz = S ++ [3] -> is_grid_of component (fun f p => te_J (te_at s f) p) axis xyz (te_J_array s axis (XyzArray xyz)).
Proof.
  intros s axis xyz S HS. unfold te_J_array. eapply map_grid; [|apply te_E_grid with S; exact HS]. intros f p c Hc. comps; reflexivity.
Qed.
Lemma te_H_grid : forall (s : tedip) axis xyz S, shape xyz = S ++ [3] -> is_grid_of component (fun f p => te_H (te_at s f) p) axis xyz (te_H_array s axis (XyzArray xyz)).
Proof.
  intros s axis xyz S HS. unfold is_grid_of, index_of. rewrite HS, removelast_snoc. destruct (check_points S xyz HS) as [HC HP].
  unfold te_H_array. rewrite HC. cbn [rbind]. cbv zeta. unfold dipole_terms_array. cbv zeta. set (F := shape axis).
  repeat prestep F S. repeat bstep F S. finish F S. comps; reflexivity.
Qed.
Lemma te_dH_grid : forall (s : tedip) axis xyz S, shape xyz = S ++ [3] -> is_grid_of component (fun f p => te_dH (te_at s f) p) axis xyz (te_dH_array s axis (XyzArray xyz)).
Proof.
  intros s axis xyz S HS. unfold is_grid_of, index_of. rewrite HS, removelast_snoc. destruct (check_points S xyz HS) as [HC HP].
  unfold te_dH_array. rewrite HC. cbn [rbind]. cbv zeta. unfold dipole_terms_array. cbv zeta. set (F := shape axis).
  repeat prestep F S. repeat bstep F S. finish F S. comps; reflexivity.
Qed.
Lemma te_B_grid : forall (s : tedip) axis xyz S, shape xyz = S ++ [3] -> is_grid_of component (fun f p => te_B (te_at s f) p) axis xyz (te_B_array s axis (XyzArray xyz)).
Proof.
  intros s axis xyz S HS. unfold te_B_array. eapply map_grid; [|apply te_H_grid with S; exact HS]. intros f p c Hc. comps; reflexivity.
Qed.
Lemma te_dB_grid : forall (s : tedip) axis xyz S, shape xyz = S ++ [3] -> is_grid_of component (fun f p => te_dB (te_at s f) p) axis xyz (te_dB_array s axis (XyzArray xyz)).
Proof.
  intros s axis xyz S HS. unfold te_dB_array. eapply map_grid; [|apply te_dH_grid with S; exact HS]. intros f p c Hc. comps; reflexivity.
Qed.
Lemma tp_E_grid : forall (s : tpwave) axis xyz S, shape xyz = S ++ [3] -> is_grid_of component (fun f p => tp_E (tp_at s f) p) axis xyz (tp_E_array s axis (XyzArray xyz)).
Proof.
  intros s axis xyz S HS. unfold is_grid_of, index_of. rewrite HS, removelast_snoc. destruct (check_points S xyz HS) as [HC HP].
  unfold tp_E_array. rewrite HC. cbn [rbind]. cbv zeta. unfold dipole_terms_array. cbv zeta. set (F := shape axis).
  repeat prestep F S. repeat bstep F S. finish F S. comps; reflexivity.
Qed.
Lemma tp_J_grid : forall (s : tpwave) axis xyz S, shape xyz = S ++ [3] -> is_grid_of component (fun f p => tp_J (tp_at s f) p) axis xyz (tp_J_array s axis (XyzArray xyz)).
Proof.
  intros s axis xyz S HS. unfold tp_J_array. eapply map_grid; [|apply tp_E_grid with S; exact HS]. intros f p c Hc. comps; reflexivity.
Qed.
Lemma tp_B_grid : forall (s : tpwave) axis xyz S, shape xyz = S ++ [3] -> is_grid_of component (fun f p => tp_B (tp_at s f) p) axis xyz (tp_B_array s axis (XyzArray xyz)).
Proof.
  intros s axis xyz S HS. unfold is_grid_of, index_of. rewrite HS, removelast_snoc. destruct (check_points S xyz HS) as [HC HP].
  unfold tp_B_array. rewrite HC. cbn [rbind]. cbv zeta. unfold dipole_terms_array. cbv zeta. set (F := shape axis).
  repeat prestep F S. repeat bstep F S. finish F S. comps; reflexivity.
Qed.
Lemma tp_H_grid : forall (s : tpwave) axis xyz S, shape xyz = S ++ [3] -> is_grid_of component (fun f p => tp_H (tp_at s f) p) axis xyz (tp_H_array s axis (XyzArray xyz)).
Proof.
  intros s axis xyz S HS. unfold tp_H_array. eapply map_grid; [|apply tp_B_grid with S; exact HS]. intros f p c Hc. comps; reflexivity.
Qed.

Lemma ed_grids (s : edip) (freq xyz : nd R) (points : list nat) : shape xyz = points ++ [3] ->
  is_grid_of ccomponent (fun f p => ed_A (ed_at s f) p) freq xyz (ed_A_array s freq (XyzArray xyz)) /\
  is_grid_of ccomponent (fun f p => ed_E (ed_at s f) p) freq xyz (ed_E_array s freq (XyzArray xyz)) /\
  is_grid_of ccomponent (fun f p => ed_J (ed_at s f) p) freq xyz (ed_J_array s freq (XyzArray xyz)) /\
  is_grid_of ccomponent (fun f p => ed_H (ed_at s f) p) freq xyz (ed_H_array s freq (XyzArray xyz)) /\
  is_grid_of ccomponent (fun f p => ed_B (ed_at s f) p) freq xyz (ed_B_array s freq (XyzArray xyz)).
Proof. intros H. repeat split; eauto using ed_A_grid, ed_E_grid, ed_J_grid, ed_H_grid, ed_B_grid. Qed.
Lemma mf_grids (s : mdip) (freq xyz : nd R) (points : list nat) : shape xyz = points ++ [3] ->
  is_grid_of ccomponent (fun f p => mf_A (mf_at s f) p) freq xyz (mf_A_array s freq (XyzArray xyz)) /\
  is_grid_of ccomponent (fun f p => mf_E (mf_at s f) p) freq xyz (mf_E_array s freq (XyzArray xyz)) /\
  is_grid_of ccomponent (fun f p => mf_J (mf_at s f) p) freq xyz (mf_J_array s freq (XyzArray xyz)) /\
  is_grid_of ccomponent (fun f p => mf_H (mf_at s f) p) freq xyz (mf_H_array s freq (XyzArray xyz)) /\
  is_grid_of ccomponent (fun f p => mf_B (mf_at s f) p) freq xyz (mf_B_array s freq (XyzArray xyz)).
Proof. intros H. repeat split; eauto using mf_A_grid, mf_E_grid, mf_J_grid, mf_H_grid, mf_B_grid. Qed.
Lemma pw_grids (s : pwave) (freq xyz : nd R) (points : list nat) : shape xyz = points ++ [3] ->
  is_grid_of ccomponent (fun f p => pw_E (pw_at s f) p) freq xyz (pw_E_array s freq (XyzArray xyz)) /\
  is_grid_of ccomponent (fun f p => pw_J (pw_at s f) p) freq xyz (pw_J_array s freq (XyzArray xyz)) /\
  is_grid_of ccomponent (fun f p => pw_B (pw_at s f) p) freq xyz (pw_B_array s freq (XyzArray xyz)) /\
  is_grid_of ccomponent (fun f p => pw_H (pw_at s f) p) freq xyz (pw_H_array s freq (XyzArray xyz)).
Proof. intros H. repeat split; eauto using pw_E_grid, pw_J_grid, pw_B_grid, pw_H_grid. Qed.
Lemma te_grids (s : tedip) (time xyz : nd R) (points : list nat) : shape xyz = points ++ [3] ->
  is_grid_of component (fun f p => te_A (te_at s f) p) time xyz (te_A_array s time (XyzArray xyz)) /\
  is_grid_of component (fun f p => te_E (te_at s f) p) time xyz (te_E_array s time (XyzArray xyz)) /\
  is_grid_of component (fun f p => te_J (te_at s f) p) time xyz (te_J_array s time (XyzArray xyz)) /\
  is_grid_of component (fun f p => te_H (te_at s f) p) time xyz (te_H_array s time (XyzArray xyz)) /\
  is_grid_of component (fun f p => te_dH (te_at s f) p) time xyz (te_dH_array s time (XyzArray xyz)) /\
  is_grid_of component (fun f p => te_B (te_at s f) p) time xyz (te_B_array s time (XyzArray xyz)) /\
  is_grid_of component (fun f p => te_dB (te_at s f) p) time xyz (te_dB_array s time (XyzArray xyz)).
Proof. intros H. repeat split; eauto using te_A_grid, te_E_grid, te_J_grid, te_H_grid, te_dH_grid, te_B_grid, te_dB_grid. Qed.
Lemma tp_grids (s : tpwave) (time xyz : nd R) (points : list nat) : shape xyz = points ++ [3] ->
  is_grid_of component (fun f p => tp_E (tp_at s f) p) time xyz (tp_E_array s time (XyzArray xyz)) /\
  is_grid_of component (fun f p => tp_J (tp_at s f) p) time xyz (tp_J_array s time (XyzArray xyz)) /\
  is_grid_of component (fun f p => tp_B (tp_at s f) p) time xyz (tp_B_array s time (XyzArray xyz)) /\
  is_grid_of component (fun f p => tp_H (tp_at s f) p) time xyz (tp_H_array s time (XyzArray xyz)).
Proof. intros H. repeat split; eauto using tp_E_grid, tp_J_grid, tp_B_grid, tp_H_grid. Qed.
Lemma all_reject (xyz : nd R) (points : list nat) (k : nat) : shape xyz = points ++ [k] -> k <> 3 ->
  (forall (s : edip) freq, ed_A_array s freq (XyzArray xyz) = Raise ValueError /\ ed_E_array s freq (XyzArray xyz) = Raise ValueError /\ ed_J_array s freq (XyzArray xyz) = Raise ValueError /\ ed_H_array s freq (XyzArray xyz) = Raise ValueError /\ ed_B_array s freq (XyzArray xyz) = Raise ValueError) /\
  (forall (s : mdip) freq, mf_A_array s freq (XyzArray xyz) = Raise ValueError /\ mf_E_array s freq (XyzArray xyz) = Raise ValueError /\ mf_J_array s freq (XyzArray xyz) = Raise ValueError /\ mf_H_array s freq (XyzArray xyz) = Raise ValueError /\ mf_B_array s freq (XyzArray xyz) = Raise ValueError) /\
  (forall (s : pwave) freq, pw_E_array s freq (XyzArray xyz) = Raise ValueError /\ pw_J_array s freq (XyzArray xyz) = Raise ValueError /\ pw_B_array s freq (XyzArray xyz) = Raise ValueError /\ pw_H_array s freq (XyzArray xyz) = Raise ValueError) /\
  (forall (s : tedip) time, te_A_array s time (XyzArray xyz) = Raise ValueError /\ te_E_array s time (XyzArray xyz) = Raise ValueError /\ te_J_array s time (XyzArray xyz) = Raise ValueError /\ te_H_array s time (XyzArray xyz) = Raise ValueError /\ te_dH_array s time (XyzArray xyz) = Raise ValueError /\ te_B_array s time (XyzArray xyz) = Raise ValueError /\ te_dB_array s time (XyzArray xyz) = Raise ValueError) /\
  (forall (s : tpwave) time, tp_E_array s time (XyzArray xyz) = Raise ValueError /\ tp_J_array s time (XyzArray xyz) = Raise ValueError /\ tp_B_array s time (XyzArray xyz) = Raise ValueError /\ tp_H_array s time (XyzArray xyz) = Raise ValueError).
Proof.
  intros H N. assert (E : check_xyz_dim (XyzArray xyz) 3 = Raise ValueError).
  { unfold check_xyz_dim. cbn [rbind]. rewrite H, rev_app_distr. cbn [rev app]. destruct (Nat.eqb_spec k 3); [contradiction|reflexivity]. }
  unfold ed_A_array, ed_E_array, ed_J_array, ed_H_array, ed_B_array, mf_A_array, mf_E_array, mf_J_array, mf_H_array, mf_B_array, pw_E_array, pw_J_array, pw_B_array, pw_H_array, te_A_array, te_E_array, te_J_array, te_H_array, te_dH_array, te_B_array, te_dB_array, tp_E_array, tp_J_array, tp_B_array, tp_H_array, ed_A_array, ed_E_array, ed_J_array, ed_H_array, ed_B_array, mf_A_array, mf_E_array, mf_J_array, mf_H_array, mf_B_array, pw_E_array, pw_J_array, pw_B_array, pw_H_array, te_A_array, te_E_array, te_J_array, te_H_array, te_dH_array, te_B_array, te_dB_array, tp_E_array, tp_J_array, tp_B_array, tp_H_array. repeat split; intros; rewrite E; reflexivity.
Qed.
Lemma all_tuples (a b c : nd R) : shape b = shape a -> shape c = shape a ->
  exists xyz, shape xyz = shape a ++ [3] /\ (forall j, vec_at xyz j = V3 (get a j) (get b j) (get c j)) /\
  (forall (s : edip) freq, ed_A_array s freq (XyzTuple [a; b; c]) = ed_A_array s freq (XyzArray xyz) /\ ed_E_array s freq (XyzTuple [a; b; c]) = ed_E_array s freq (XyzArray xyz) /\ ed_J_array s freq (XyzTuple [a; b; c]) = ed_J_array s freq (XyzArray xyz) /\ ed_H_array s freq (XyzTuple [a; b; c]) = ed_H_array s freq (XyzArray xyz) /\ ed_B_array s freq (XyzTuple [a; b; c]) = ed_B_array s freq (XyzArray xyz)) /\
  (forall (s : mdip) freq, mf_A_array s freq (XyzTuple [a; b; c]) = mf_A_array s freq (XyzArray xyz) /\ mf_E_array s freq (XyzTuple [a; b; c]) = mf_E_array s freq (XyzArray xyz) /\ mf_J_array s freq (XyzTuple [a; b; c]) = mf_J_array s freq (XyzArray xyz) /\ mf_H_array s freq (XyzTuple [a; b; c]) = mf_H_array s freq (XyzArray xyz) /\ mf_B_array s freq (XyzTuple [a; b; c]) = mf_B_array s freq (XyzArray xyz)) /\
  (forall (s : pwave) freq, pw_E_array s freq (XyzTuple [a; b; c]) = pw_E_array s freq (XyzArray xyz) /\ pw_J_array s freq (XyzTuple [a; b; c]) = pw_J_array s freq (XyzArray xyz) /\ pw_B_array s freq (XyzTuple [a; b; c]) = pw_B_array s freq (XyzArray xyz) /\ pw_H_array s freq (XyzTuple [a; b; c]) = pw_H_array s freq (XyzArray xyz)) /\
  (forall (s : tedip) time, te_A_array s time (XyzTuple [a; b; c]) = te_A_array s time (XyzArray xyz) /\ te_E_array s time (XyzTuple [a; b; c]) = te_E_array s time (XyzArray xyz) /\ te_J_array s time (XyzTuple [a; b; c]) = te_J_array s time (XyzArray xyz) /\ te_H_array s time (XyzTuple [a; b; c]) = te_H_array s time (XyzArray xyz) /\ te_dH_array s time (XyzTuple [a; b; c]) = te_dH_array s time (XyzArray xyz) /\ te_B_array s time (XyzTuple [a; b; c]) = te_B_array s time (XyzArray xyz) /\ te_dB_array s time (XyzTuple [a; b; c]) = te_dB_array s time (XyzArray xyz)) /\
  (forall (s : tpwave) time, tp_E_array s time (XyzTuple [a; b; c]) = tp_E_array s time (XyzArray xyz) /\ tp_J_array s time (XyzTuple [a; b; c]) = tp_J_array s time (XyzArray xyz) /\ tp_B_array s time (XyzTuple [a; b; c]) = tp_B_array s time (XyzArray xyz) /\ tp_H_array s time (XyzTuple [a; b; c]) = tp_H_array s time (XyzArray xyz)).
Proof.
  intros Hb Hc. set (xyz := ND (shape a ++ [3]) (fun ix => get (nth (last ix 0) [a; b; c] a) (removelast ix))).
  assert (ES : stack_last [a; b; c] = Ok xyz).
  { unfold stack_last. cbn [forallb]. rewrite Hb, Hc. unfold shape_eqb. destruct (list_eq_dec Nat.eq_dec (shape a) (shape a)); [reflexivity|congruence]. }
  assert (E : check_xyz_dim (XyzTuple [a; b; c]) 3 = check_xyz_dim (XyzArray xyz) 3).
  { unfold check_xyz_dim. rewrite ES. reflexivity. }
  exists xyz. split; [reflexivity|]. split.
  { intros j. unfold vec_at, xyz. cbn [get]. rewrite !last_last, !removelast_snoc. reflexivity. }
  unfold ed_A_array, ed_E_array, ed_J_array, ed_H_array, ed_B_array, mf_A_array, mf_E_array, mf_J_array, mf_H_array, mf_B_array, pw_E_array, pw_J_array, pw_B_array, pw_H_array, te_A_array, te_E_array, te_J_array, te_H_array, te_dH_array, te_B_array, te_dB_array, tp_E_array, tp_J_array, tp_B_array, tp_H_array, ed_A_array, ed_E_array, ed_J_array, ed_H_array, ed_B_array, mf_A_array, mf_E_array, mf_J_array, mf_H_array, mf_B_array, pw_E_array, pw_J_array, pw_B_array, pw_H_array, te_A_array, te_E_array, te_J_array, te_H_array, te_dH_array, te_B_array, te_dB_array, tp_E_array, tp_J_array, tp_B_array, tp_H_array. repeat split; intros; rewrite E; reflexivity.
Qed.
