From Coq Require Import Reals Lra Lia List Bool Arith ZArith String.
From Verif Require Import Numpy PyVal Spec_Setters Model_Setters.
Import ListNotations.
Open Scope string_scope.
Open Scope R_scope.

(** ** float comparisons *)
Lemma fle0_false x : le0 x = false -> positive_or_nan x.
Proof.
  unfold le0, positive_or_nan; destruct x; simpl; intros H; auto; try discriminate.
  right; right; exists r; split; auto. apply Rleb_false in H; auto.
Qed.
Lemma flt0_false x : lt0 x = false -> nonneg_or_nan x.
Proof.
  unfold lt0, nonneg_or_nan; destruct x; simpl; intros H; auto; try discriminate.
  right; right; exists r; split; auto. apply Rltb_false in H; auto.
Qed.
Lemma outside_false lo hi x : outside_rng lo hi x = false -> within_or_nan lo hi x.
Proof.
  unfold outside_rng, within_or_nan; destruct x; simpl; intros H; auto; try discriminate.
  apply orb_false_iff in H; destruct H as [H1 H2].
  apply Rltb_false in H1, H2. right; eexists; split; eauto.
Qed.

(** ** the shape of the setters: nothing changes, or one key is updated *)
Definition upd_setter (f : pyval -> M unit) (k : string) (P : pyval -> obj -> aval -> Prop) : Prop :=
  forall v o, (exists e, f v o = (o, Raise e)) \/
              (exists x, P v o x /\ f v o = (upd o k x, Ok tt)).

Ltac sbind := unfold read_flt, read_arr, bind, lift, try_raise, check, raise, ret, write, read,
                     as_flt, as_arr, raise, ret in *.

Lemma set_float_cases py k bad p :
  upd_setter (set_float py k bad p) (p ++ k)
    (fun v _ x => exists r, float_ py v = Ok r /\ bad r = false /\ x = AFlt r).
Proof.
  intros v o; unfold set_float; sbind.
  destruct (float_ py v) as [r|e] eqn:E; [|left; eauto].
  destruct (bad r) eqn:B; [left; eauto|right; eauto 8].
Qed.
Lemma set_float_raw_cases py k bad p :
  upd_setter (set_float_raw py k bad p) (p ++ k)
    (fun v _ x => exists r, float_ py v = Ok r /\ bad r = false /\ x = AFlt r).
Proof.
  intros v o; unfold set_float_raw; sbind.
  destruct (float_ py v) as [r|e] eqn:E; [|left; eauto].
  destruct (bad r) eqn:B; [left; eauto|right; eauto 8].
Qed.
Lemma shape_is_true a s : shape_is a s = true <-> ashape a = s.
Proof. unfold shape_is; destruct list_eq_dec; split; intros; auto; discriminate. Qed.
Lemma set_vec_cases py k shp e p :
  upd_setter (set_vec py k shp e p) (p ++ k)
    (fun v _ x => exists a, asarray py v = Ok a /\ ashape (squeeze a) = shp /\ x = AArr (squeeze a)).
Proof.
  intros v o; unfold set_vec; sbind.
  destruct (asarray py v) as [a|e'] eqn:E; [|left; eauto].
  destruct (shape_is (squeeze a) shp) eqn:B; simpl; [right|left; eauto].
  apply shape_is_true in B; eauto 8.
Qed.
Lemma set_len3_cases py k p :
  upd_setter (set_len3 py k p) (p ++ k)
    (fun v _ x => exists a, asarray py v = Ok a /\ alen (atleast_1d a) = 3%nat /\ x = AArr (atleast_1d a)).
Proof.
  intros v o; unfold set_len3, atleast_1d_float; sbind.
  destruct (asarray py v) as [a|e'] eqn:E; simpl; [|left; eauto].
  destruct (Nat.eqb (alen (atleast_1d a)) 3) eqn:B; simpl; [right|left; eauto].
  apply Nat.eqb_eq in B; eauto 8.
Qed.
Lemma em_set_rho_cases py p :
  upd_setter (em_set_rho py p) (p ++ "_sigma")
    (fun v _ x => exists r q, float_ py v = Ok r /\ fdiv_py (Fin 1) r = Ok q /\ le0 q = false /\ x = AFlt q).
Proof.
  intros v o; unfold em_set_rho, em_set_sigma, set_float; sbind.
  destruct (float_ py v) as [r|e'] eqn:E; [|left; eauto].
  destruct (fdiv_py (Fin 1) r) as [q|e'] eqn:D; [|left; eauto]. simpl.
  destruct (le0 q) eqn:B; [left; eauto|right; eauto 10].
Qed.
Lemma asarray_wf py v a : wf_val v -> asarray py v = Ok a -> wf_arr a.
Proof.
  destruct v; simpl; intros W E; try discriminate; try (inversion E; subst; simpl; auto; reflexivity).
  destruct (parse_float py s); inversion E; subst; reflexivity.
Qed.
Lemma prodn_filter l : prodn (filter (fun n => negb (Nat.eqb n 1)) l) = prodn l.
Proof.
  induction l as [|n l IH]; [reflexivity|]. simpl. destruct (Nat.eqb n 1) eqn:E; simpl; rewrite IH; auto.
  apply Nat.eqb_eq in E; subst. lia.
Qed.
Lemma wf_squeeze a : wf_arr a -> wf_arr (squeeze a).
Proof. unfold wf_arr, squeeze; simpl. rewrite prodn_filter; auto. Qed.
Lemma wf_vec3 a : wf_arr a -> ashape a = [3%nat] -> is_vec3 (AArr a).
Proof.
  destruct a as [s d]; unfold wf_arr; simpl; intros W ->. simpl in W.
  destruct d as [|x [|y [|z [|]]]]; simpl in W; try lia. exists x, y, z; reflexivity.
Qed.
Lemma dip_set_orientation_cases py p :
  upd_setter (dip_set_orientation py p) (p ++ "_orientation")
    (fun v _ x => exists a, x = AArr a /\ ashape a = [3%nat] /\ (wf_val v -> wf_arr a)).
Proof.
  intros v o; unfold dip_set_orientation.
  destruct (is_str v) as [s|] eqn:S.
  - destruct (String.eqb (upper s) "X"); [right; eexists; split; [|reflexivity]; eexists; repeat split; reflexivity|].
    destruct (String.eqb (upper s) "Y"); [right; eexists; split; [|reflexivity]; eexists; repeat split; reflexivity|].
    destruct (String.eqb (upper s) "Z"); [right; eexists; split; [|reflexivity]; eexists; repeat split; reflexivity|].
    left; eexists; reflexivity.
  - sbind. destruct (asarray py v) as [a|e'] eqn:E; [|left; eauto].
    destruct (shape_is (squeeze a) [3%nat]) eqn:B; simpl; [right|left; eauto].
    apply shape_is_true in B.
    eexists; split; [|reflexivity]. eexists; split; [reflexivity|]. split; [exact B|].
    intros W. assert (WA := wf_squeeze _ (asarray_wf _ _ _ W E)).
    unfold normalise, amap, wf_arr in *; cbn [ashape adata]. rewrite map_length; exact WA.
Qed.

Lemma pw_set_orientation_cases py p :
  upd_setter (pw_set_orientation py p) (p ++ "_orientation") (fun _ _ _ => True).
Proof.
  intros v o; unfold pw_set_orientation.
  destruct (is_str v) as [s|] eqn:S.
  - destruct (String.eqb (upper s) "X"); [right; eexists; split; [auto|reflexivity]|].
    destruct (String.eqb (upper s) "Y"); [right; eexists; split; [auto|reflexivity]|].
    right; eexists; split; [auto|reflexivity].
  - sbind. destruct (asarray py v) as [a|e'] eqn:E; [|left; eauto].
    destruct (shape_is (squeeze a) [3%nat]) eqn:B; simpl; [|left; eauto].
    destruct (feq (nth 2 (adata a) NaN) (Fin 0)); simpl; [right; eauto|left; eauto].
Qed.

Lemma wf_atleast_2d a : wf_arr a -> wf_arr (atleast_2d a).
Proof.
  destruct a as [s d]; unfold wf_arr, atleast_2d; simpl. destruct s as [|n [|m s]]; simpl; intros; lia.
Qed.
Lemma line_set_nodes_cases py p :
  upd_setter (line_set_nodes py p) (p ++ "_nodes")
    (fun v _ x => exists a n, asarray py v = Ok a /\ x = AArr (atleast_2d a) /\
        ashape (atleast_2d a) = [n; 3%nat] /\ (wf_val v -> wf_arr (atleast_2d a))).
Proof.
  intros v o; unfold line_set_nodes; sbind.
  destruct (asarray py v) as [a|e'] eqn:E; [|left; eauto].
  destruct (Nat.eqb (nth 1 (ashape (atleast_2d a)) 0%nat) 3) eqn:B1; simpl; [|left; eauto].
  destruct (Nat.eqb (ndim (atleast_2d a)) 2) eqn:B2; simpl; [right|left; eauto].
  apply Nat.eqb_eq in B1, B2. unfold ndim in B2.
  destruct (ashape (atleast_2d a)) as [|n [|m [|]]] eqn:S; simpl in *; try discriminate.
  subst m. eexists; split; [|reflexivity]. exists a, n; repeat split; auto.
  intros W; apply wf_atleast_2d; eapply asarray_wf; eauto.
Qed.
Lemma sphere_set_mass_cases py p :
  upd_setter (sphere_set_mass py p) (p ++ "_rho")
    (fun v o x => exists m r q, float_ py v = Ok m /\ o (p ++ "_radius") = Some (AFlt r) /\
        fdiv_py (fmul m (Fin 3)) (fmul (Fin (4 * PI)) (fpow3 r)) = Ok q /\ x = AFlt q).
Proof.
  intros v o; unfold sphere_set_mass; sbind.
  destruct (float_ py v) as [m|e'] eqn:E; [|left; eauto].
  destruct (o (p ++ "_radius")) as [[r| | | | | |]|] eqn:R; try (left; eauto; fail); cbv beta iota.
  cbv beta iota; match goal with |- context [fdiv_py ?a ?b] => destruct (fdiv_py a b) as [q|e2] eqn:D end; [right; eauto 10|left; eauto].
Qed.
Lemma ok_set_depth_bottom_cases py p :
  upd_setter (ok_set_depth_bottom py p) (p ++ "_depth_bottom")
    (fun v o x => exists b t, float_ py v = Ok b /\ o (p ++ "_depth_top") = Some (AFlt t) /\
        flt b t = false /\ x = AFlt b).
Proof.
  intros v o; unfold ok_set_depth_bottom; sbind.
  destruct (float_ py v) as [m|e'] eqn:E; [|left; eauto].
  destruct (o (p ++ "_depth_top")) as [[r| | | | | |]|] eqn:R; try (left; eauto; fail); cbv beta iota.
  destruct (flt m r) eqn:D; [left; eauto|right; eauto 10].
Qed.
Lemma pc_set_location_cases py p :
  upd_setter (pc_set_location py p) (p ++ "_nodes")
    (fun v o x => exists a nodes, asarray py v = Ok a /\ ashape (atleast_1d a) = [3%nat] /\
        o (p ++ "_nodes") = Some (AArr nodes) /\ alen nodes <> 0%nat /\
        x = AArr (mkarr (ashape nodes) (adata a ++ skipn 3 (adata nodes))%list)).
Proof.
  intros v o; unfold pc_set_location, atleast_1d_float; sbind.
  destruct (asarray py v) as [a|e'] eqn:E; simpl; [|left; eauto].
  destruct (Nat.eqb (alen (atleast_1d a)) 3) eqn:B; simpl; [|left; eauto].
  destruct (o (p ++ "_nodes")) as [[|nodes| | | | |]|] eqn:R; try (left; eauto; fail); cbv beta iota.
  destruct (Nat.eqb (alen nodes) 0) eqn:L; simpl; [left; eauto|].
  destruct (shape_is (atleast_1d a) [3%nat]) eqn:S; simpl; [|left; eauto].
  apply shape_is_true in S. apply Nat.eqb_neq in L.
  right. eexists; split; [|reflexivity]. exists a, nodes. repeat split; auto.
  unfold atleast_1d; destruct (ashape a); reflexivity.
Qed.
Lemma set_samples_cases py k p :
  upd_setter (set_samples py k p) (p ++ k)
    (fun v _ x => exists a, asarray py v = Ok a /\ Forall nonneg_or_nan (adata a) /\
        (ndim a <= 1)%nat /\ x = AArr a).
Proof.
  intros v o; unfold set_samples; sbind.
  destruct (asarray py v) as [a|e'] eqn:E; [|left; eauto].
  destruct (existsb lt0 (adata a)) eqn:B; [left; eauto|].
  destruct (Nat.ltb 1 (ndim a)) eqn:N; [left; eauto|right].
  apply Nat.ltb_ge in N. eexists; split; [|reflexivity]. exists a; repeat split; auto.
  apply Forall_forall; intros x Hx. apply flt0_false.
  destruct (lt0 x) eqn:L; auto. rewrite <- B; symmetry; apply existsb_exists; eauto.
Qed.
Lemma set_quasistatic_cases p :
  upd_setter (set_quasistatic p) (p ++ "quasistatic") (fun v _ x => x = APy v).
Proof. intros v o; right; eauto. Qed.
Lemma int_set_data_cases py p :
  upd_setter (int_set_data py p) (p ++ "_data")
    (fun v _ x => exists a, asarray py v = Ok a /\ x = AArr a).
Proof.
  intros v o; unfold int_set_data; sbind.
  destruct (asarray py v) eqn:E; [right; eauto 8|left; eauto].
Qed.
Lemma set_str_cases py k p :
  upd_setter (set_str py k p) (p ++ k) (fun v _ x => exists s, to_str py v = Ok s /\ x = AStr s).
Proof.
  intros v o; unfold set_str; sbind.
  destruct (to_str py v) eqn:E; [right; eauto 8|left; eauto].
Qed.
Lemma int_set_zone_cases py p :
  upd_setter (int_set_zone py p) (p ++ "_location_UTM_zone")
    (fun v _ x => exists z, to_int py v = Ok z /\ x = AInt z).
Proof.
  intros v o; unfold int_set_zone; sbind.
  destruct (to_int py v) eqn:E; [right; eauto 8|left; eauto].
Qed.
Lemma int_set_shape_cases py p :
  upd_setter (int_set_shape py p) (p ++ "_shape")
    (fun v _ x => exists l, to_ints py v = Ok l /\ List.length l = 2%nat /\ x = AInts l).
Proof.
  intros v o; unfold int_set_shape; sbind.
  destruct (to_ints py v) as [l|] eqn:E; [|left; eauto].
  destruct (Nat.eqb (List.length l) 2) eqn:B; simpl; [right|left; eauto].
  apply Nat.eqb_eq in B; eauto 8.
Qed.
Lemma ok_set_shape_cases py p :
  upd_setter (ok_set_shape py p) (p ++ "_shape")
    (fun v _ x => exists l, to_ints py v = Ok l /\ List.length l = 2%nat /\ x = AInts l).
Proof.
  intros v o; unfold ok_set_shape; sbind.
  destruct (to_ints py v) as [l|] eqn:E; [|left; eauto].
  destruct (Nat.eqb (List.length l) 2) eqn:B; simpl; [right|left; eauto].
  apply Nat.eqb_eq in B; eauto 8.
Qed.
Lemma set_date_cases py k p :
  upd_setter (set_date py k p) (p ++ k)
    (fun v _ x => exists d, (v = PDate d \/ to_date py v = Ok d) /\ x = ADate d).
Proof.
  intros v o; unfold set_date.
  assert (G : (exists e, (d <-- try_raise (lift (to_date py v)) TypeError ;; write (p ++ k) (ADate d)) o
               = (o, Raise e)) \/
     (exists x, (exists d, (v = PDate d \/ to_date py v = Ok d) /\ x = ADate d) /\
        (d <-- try_raise (lift (to_date py v)) TypeError ;; write (p ++ k) (ADate d)) o
         = (upd o (p ++ k) x, Ok tt))).
  { sbind. destruct (to_date py v) eqn:E; [right; eauto 8|left; eauto]. }
  destruct v; auto. right; eauto 8.
Qed.
