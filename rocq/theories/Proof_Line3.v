From Coq Require Import Reals Lra Lia List Bool.
From Coquelicot Require Import Coquelicot.
From Verif Require Import Vec3 Numpy Calculus Deriv Integral CurveDeriv Model_Spatial Proof_Spatial Model_Prism Model_Static Spec_Static Proof_Static Proof_Static2 Proof_Line Proof_Line2.
Import ListNotations.
Open Scope R_scope.

(** *** C46: subdividing *)
Lemma vnorm_scal_pos k v : 0 <= k -> vnorm (vscal k v) = k * vnorm v.
Proof. intro H. rewrite vnorm_scal, Rabs_pos_eq by exact H. reflexivity. Qed.

Lemma udir_pos_multiple a b c d k : a <> b -> 0 < k -> vsub d c = vscal k (vsub b a) -> udir c d = udir a b.
Proof.
  intros N K E. unfold udir. rewrite E, vnorm_scal_pos by lra.
  assert (L : 0 < vnorm (vsub b a)) by (apply vnorm_pos, vsub_nz; congruence).
  set (l := vnorm _) in *. destruct (vsub b a) as [x y z]. unfold vdiv, vscal; cbn [vx vy vz]. f_equal; field; lra.
Qed.

Lemma proper_iff_dir a b : proper_segment a b <-> a <> b /\ (/ 10 ^ 20 <= vnorm (vcross (udir a b) (V3 1 0 0)) \/ vcross (udir a b) (V3 1 0 0) = vzero).
Proof. unfold proper_segment, udir. rewrite vdiv_scal. tauto. Qed.

Section Sub.
Variables a b : vec3.
Hypothesis P : proper_segment a b.
Variable t : R.
Hypothesis Ht : 0 < t < 1.
Let c := on_seg a b t.
Lemma sub_ac : vsub c a = vscal t (vsub b a). Proof. unfold c, on_seg. destruct a, b; vring. Qed.
Lemma sub_cb : vsub b c = vscal (1 - t) (vsub b a). Proof. unfold c, on_seg. destruct a, b; vring. Qed.
Lemma dir_ac : udir a c = udir a b. Proof. apply (udir_pos_multiple a b a c t); [apply P|lra|apply sub_ac]. Qed.
Lemma dir_cb : udir c b = udir a b. Proof. apply (udir_pos_multiple a b c b (1 - t)); [apply P|lra|apply sub_cb]. Qed.

Lemma neq_of_sub p q k : 0 < k -> vsub q p = vscal k (vsub b a) -> p <> q.
Proof.
  intros K E N. subst q. pose proof (seg_len_pos a b P) as L.
  assert (Z : vnorm (vscal k (vsub b a)) = 0). { rewrite <- E. replace (vsub p p) with vzero by (destruct p; vring). apply vnorm_zero. }
  rewrite vnorm_scal_pos in Z by lra. nra.
Qed.

Lemma proper_ac : proper_segment a c.
Proof. apply proper_iff_dir. rewrite dir_ac. pose proof P as PP. apply proper_iff_dir in PP. destruct PP as [_ Q]. split; [|exact Q]. apply (neq_of_sub a c t); [lra|apply sub_ac]. Qed.
Lemma proper_cb : proper_segment c b.
Proof. apply proper_iff_dir. rewrite dir_cb. pose proof P as PP. apply proper_iff_dir in PP. destruct PP as [_ Q]. split; [|exact Q]. apply (neq_of_sub c b (1 - t)); [lra|apply sub_cb]. Qed.

Lemma cross_c p : vcross (udir a b) (vsub p c) = vcross (udir a b) (vsub p a).
Proof.
  replace (vsub p c) with (vsub (vsub p a) (vscal t (vsub b a))) by (unfold c, on_seg; destruct p, a, b; vring).
  rewrite (seg_vec a b P). generalize (udir a b) (vnorm (vsub b a)) (vsub p a). intros u l v. destruct u, v; vring.
Qed.

Lemma off_ac p : off_line p a c <-> off_line p a b.
Proof. rewrite (off_line_perp a c p proper_ac), (off_line_perp a b p P), (perp2_cross a c p proper_ac), (perp2_cross a b p P), dir_ac. tauto. Qed.
Lemma off_cb p : off_line p c b <-> off_line p a b.
Proof. rewrite (off_line_perp c b p proper_cb), (off_line_perp a b p P), (perp2_cross c b p proper_cb), (perp2_cross a b p P), dir_cb, cross_c. tauto. Qed.

Lemma gA_sub p : vadd (gA p a c) (gA p c b) = gA p a b.
Proof. unfold gA, Xc. rewrite dir_ac, dir_cb. generalize (udir a b). intro u. destruct u; unfold vadd, vscal; cbn; f_equal; ring. Qed.

Lemma gB_sub p : vadd (gB p a c) (gB p c b) = gB p a b.
Proof.
  unfold gB. rewrite (perp2_cross a c p proper_ac), (perp2_cross c b p proper_cb), (perp2_cross a b p P), dir_ac, dir_cb, cross_c.
  unfold tB, Xc. rewrite dir_ac, dir_cb. generalize (vcross (udir a b) (vsub p a)). intro w.
  generalize (vnorm2 w). intro k. destruct w; unfold vadd, vscal; cbn; f_equal; unfold Rdiv; ring.
Qed.
End Sub.

Lemma every_segment_app P l1 x l2 : every_segment P (l1 ++ x :: l2) <-> every_segment P (l1 ++ [x]) /\ every_segment P (x :: l2).
Proof.
  induction l1 as [|y l1 IH]; cbn [app]; [cbn [every_segment]; tauto|].
  destruct l1 as [|z l1]; cbn [app] in *; cbn [every_segment] in *; tauto.
Qed.
Lemma wsum_app g l1 x l2 : wsum g (l1 ++ x :: l2) = vadd (wsum g (l1 ++ [x])) (wsum g (x :: l2)).
Proof.
  induction l1 as [|y l1 IH]; cbn [app]; [cbn [wsum]; rewrite vadd_0_l; reflexivity|].
  destruct l1 as [|z l1]; cbn [app] in *.
  - change (wsum g (y :: x :: l2)) with (vadd (g y x) (wsum g (x :: l2))). change (wsum g [y; x]) with (vadd (g y x) vzero).
    rewrite vadd_0_r. reflexivity.
  - change (wsum g (y :: z :: l1 ++ x :: l2)) with (vadd (g y z) (wsum g (z :: l1 ++ x :: l2))).
    change (wsum g (y :: z :: l1 ++ [x])) with (vadd (g y z) (wsum g (z :: l1 ++ [x]))).
    rewrite IH, vadd_assoc. reflexivity.
Qed.

Lemma every_segment_dec p nodes : proper_wire nodes -> every_segment (off_line p) nodes \/ ~ every_segment (off_line p) nodes.
Proof.
  induction nodes as [|x l IH]; intro H; [left; exact I|]. destruct l as [|y r]; [left; exact I|].
  destruct H as [H1 H2]. destruct (IH H2) as [A|A]; [|right; intros [_ B]; contradiction].
  destruct (Rlt_dec 0 (perp2 x y p)) as [Q|Q]; [left; split; [apply off_line_perp; assumption|exact A]|].
  right. intros [B _]. apply (off_line_perp x y p H1) in B. contradiction.
Qed.

Lemma proper_subdivide l1 a b l2 t : 0 < t < 1 -> proper_wire (l1 ++ a :: b :: l2) -> proper_wire (l1 ++ a :: on_seg a b t :: b :: l2).
Proof.
  intros Ht H. apply every_segment_app in H. destruct H as [H1 [H2 H3]]. apply every_segment_app.
  split; [exact H1|]. split; [apply proper_ac; assumption|]. split; [apply proper_cb; assumption|exact H3].
Qed.

Lemma line_subdivide l1 a b l2 t I sig mu p : 0 < t < 1 -> proper_wire (l1 ++ a :: b :: l2) ->
  let w := LC (l1 ++ a :: b :: l2) I sig mu in let w' := LC (l1 ++ a :: on_seg a b t :: b :: l2) I sig mu in
  lc_vector_potential w' p = lc_vector_potential w p /\ lc_flux_density w' p = lc_flux_density w p /\
  lc_magnetic_field w' p = lc_magnetic_field w p.
Proof.
  intros Ht H w w'. pose proof (proper_subdivide _ _ _ _ _ Ht H) as H'.
  assert (Ps : proper_segment a b) by (apply every_segment_app in H; apply H).
  assert (B : lc_flux_density w' p = lc_flux_density w p).
  { assert (O : every_segment (off_line p) (l1 ++ a :: b :: l2) <-> every_segment (off_line p) (l1 ++ a :: on_seg a b t :: b :: l2)).
    { rewrite (every_segment_app _ l1 a (b :: l2)), (every_segment_app _ l1 a (on_seg a b t :: b :: l2)).
      change (every_segment (off_line p) (a :: b :: l2)) with (off_line p a b /\ every_segment (off_line p) (b :: l2)).
      change (every_segment (off_line p) (a :: on_seg a b t :: b :: l2)) with (off_line p a (on_seg a b t) /\ off_line p (on_seg a b t) b /\ every_segment (off_line p) (b :: l2)).
      rewrite (off_ac a b Ps t Ht p), (off_cb a b Ps t Ht p). tauto. }
    destruct (every_segment_dec p _ H) as [D|D].
    - rewrite (B_value w p H D). rewrite (B_value w' p H' (proj1 O D)). do 3 f_equal. cbn [lc_nodes w w'].
      rewrite (wsum_app _ l1 a (b :: l2)), (wsum_app _ l1 a (on_seg a b t :: b :: l2)). f_equal. cbn [wsum].
      rewrite <- vadd_assoc, (gB_sub a b Ps t Ht p). reflexivity.
    - rewrite (B_none w p H D). apply (B_none w' p H'). tauto. }
  split; [|split; [exact B|unfold lc_magnetic_field; rewrite B; reflexivity]].
  rewrite (A_value w p H), (A_value w' p H'). do 2 f_equal. cbn [lc_nodes w w'].
  rewrite (wsum_app _ l1 a (b :: l2)), (wsum_app _ l1 a (on_seg a b t :: b :: l2)). f_equal. cbn [wsum].
  rewrite <- vadd_assoc, (gA_sub a b Ps t Ht p). reflexivity.
Qed.

(** *** C46: concatenation *)
Lemma line_concat l1 x l2 I sig mu p : proper_wire (l1 ++ x :: l2) -> every_segment (off_line p) (l1 ++ x :: l2) ->
  let w := LC (l1 ++ x :: l2) I sig mu in let w1 := LC (l1 ++ [x]) I sig mu in let w2 := LC (x :: l2) I sig mu in
  (exists A1 A2, lc_vector_potential w1 p = Ok A1 /\ lc_vector_potential w2 p = Ok A2 /\ lc_vector_potential w p = Ok (vadd A1 A2)) /\
  (exists B1 B2, lc_flux_density w1 p = Ok (Some B1) /\ lc_flux_density w2 p = Ok (Some B2) /\ lc_flux_density w p = Ok (Some (vadd B1 B2))).
Proof.
  intros H O w w1 w2. pose proof (proj1 (every_segment_app _ _ _ _) H) as [H1 H2]. pose proof (proj1 (every_segment_app _ _ _ _) O) as [O1 O2].
  split.
  - do 2 eexists. rewrite (A_value w1 p H1), (A_value w2 p H2), (A_value w p H). split; [reflexivity|]. split; [reflexivity|].
    cbn [lc_nodes w w1 w2 lc_mu lc_current]. rewrite wsum_app, vscal_add. reflexivity.
  - do 2 eexists. rewrite (B_value w1 p H1 O1), (B_value w2 p H2 O2), (B_value w p H O). split; [reflexivity|]. split; [reflexivity|].
    cbn [lc_nodes w w1 w2 lc_mu lc_current]. rewrite wsum_app, vscal_add. reflexivity.
Qed.

(** *** C46: reversal *)
Lemma dir_rev a b : udir b a = vopp (udir a b).
Proof. unfold udir. rewrite (vnorm_sub_sym a b). destruct a, b; unfold vdiv, vopp, vsub; cbn. f_equal; unfold Rdiv; ring. Qed.
Lemma proper_rev a b : proper_segment a b -> proper_segment b a.
Proof.
  rewrite (proper_iff_dir a b), (proper_iff_dir b a), (dir_rev a b). intros [N Q]. split; [congruence|].
  assert (E : vcross (vopp (udir a b)) (V3 1 0 0) = vopp (vcross (udir a b) (V3 1 0 0))) by (destruct (udir a b); vring).
  rewrite E, vnorm_opp. destruct Q as [Q|Q]; [left; exact Q|right; rewrite Q; apply vopp_0].
Qed.
Lemma cross_rev a b p : proper_segment a b -> vcross (udir a b) (vsub p b) = vcross (udir a b) (vsub p a).
Proof.
  intro P. replace (vsub p b) with (vsub (vsub p a) (vsub b a)) by (destruct p, a, b; vring).
  rewrite (seg_vec a b P). generalize (udir a b) (vnorm (vsub b a)) (vsub p a). intros u l v. destruct u, v; vring.
Qed.
Lemma perp2_rev a b p : proper_segment a b -> perp2 b a p = perp2 a b p.
Proof.
  intro P. rewrite (perp2_cross b a p (proper_rev a b P)), (perp2_cross a b p P), (dir_rev a b).
  rewrite <- (cross_rev a b p P). generalize (udir a b) (vsub p b). intros u v. destruct u, v; vring.
Qed.
Lemma off_rev a b p : proper_segment a b -> (off_line p b a <-> off_line p a b).
Proof. intro P. rewrite (off_line_perp a b p P), (off_line_perp b a p (proper_rev a b P)), (perp2_rev a b p P). tauto. Qed.
Lemma gB_rev a b p : proper_segment a b -> gB p b a = vopp (gB p a b).
Proof.
  intro P. unfold gB. rewrite (perp2_rev a b p P).
  assert (E : tB b a p = tB a b p).
  { unfold tB, Xc. rewrite (dir_rev a b). generalize (udir a b) (vsub p a) (vsub p b). intros u v w.
    replace (vdot (vopp u) v) with (- vdot u v) by vring. replace (vdot (vopp u) w) with (- vdot u w) by vring. unfold Rdiv; ring. }
  rewrite E, (dir_rev a b), <- (cross_rev a b p P). generalize (udir a b) (vsub p b). intros u v. destruct u, v; vring.
Qed.

Lemma is_RInt_rev (h k : R -> R) I : is_RInt h 0 1 I -> (forall s, k s = - h (1 - s)) -> is_RInt k 0 1 (- I).
Proof.
  intros H E.
  assert (H' : is_RInt h (-1 * 0 + 1) (-1 * 1 + 1) (- I)).
  { replace (-1 * 0 + 1) with 1 by ring. replace (-1 * 1 + 1) with 0 by ring. apply (is_RInt_swap h 1 0 I) in H. exact H. }
  pose proof (is_RInt_comp_lin h (-1) 1 0 1 _ H') as K. eapply is_RInt_ext; [|exact K].
  intros s _. rewrite E. change (-1 * h (-1 * s + 1) = - h (1 - s)). replace (-1 * s + 1) with (1 - s) by ring. ring.
Qed.
Lemma off_segment_rev p a b : off_segment p a b -> off_segment p b a.
Proof.
  intros O s Hs E. apply (O (1 - s)); [lra|]. rewrite E. unfold on_seg. destruct a, b; vring.
Qed.

Lemma gA_rev a b p : proper_segment a b -> off_segment p a b -> gA p b a = vopp (gA p a b).
Proof.
  intros P O.
  pose proof (seg_dl_over_r a b p P O) as [K1 [K2 K3]].
  pose proof (seg_dl_over_r b a p (proper_rev a b P) (off_segment_rev _ _ _ O)) as [L1 [L2 L3]].
  assert (E : forall s, dl_over_r p (vsub a b) (on_seg b a s) = vopp (dl_over_r p (vsub b a) (on_seg a b (1 - s)))).
  { intro s. unfold dl_over_r. replace (on_seg a b (1 - s)) with (on_seg b a s) by (unfold on_seg; destruct a, b; vring).
    generalize (/ vnorm (vsub p (on_seg b a s))). intro k. destruct a, b; vring. }
  assert (F1 : forall s, vx (dl_over_r p (vsub a b) (on_seg b a s)) = - vx (dl_over_r p (vsub b a) (on_seg a b (1 - s)))) by (intro s; rewrite E; reflexivity).
  assert (F2 : forall s, vy (dl_over_r p (vsub a b) (on_seg b a s)) = - vy (dl_over_r p (vsub b a) (on_seg a b (1 - s)))) by (intro s; rewrite E; reflexivity).
  assert (F3 : forall s, vz (dl_over_r p (vsub a b) (on_seg b a s)) = - vz (dl_over_r p (vsub b a) (on_seg a b (1 - s)))) by (intro s; rewrite E; reflexivity).
  apply (is_RInt_rev _ _ _ K1) in F1. apply (is_RInt_rev _ _ _ K2) in F2. apply (is_RInt_rev _ _ _ K3) in F3.
  apply (is_RInt_unique (V:=R_CompleteNormedModule)) in L1, L2, L3, F1, F2, F3. rewrite L1 in F1. rewrite L2 in F2. rewrite L3 in F3.
  unfold gA. unfold vscal, vopp in *; cbn [vx vy vz] in *. f_equal; lra.
Qed.

Lemma every_segment_rev (Q Q' : vec3 -> vec3 -> Prop) nodes : (forall a b, Q a b -> Q' b a) -> every_segment Q nodes -> every_segment Q' (rev nodes).
Proof.
  intros I. induction nodes as [|a nodes IH]; [auto|]. intro H. cbn [rev].
  destruct nodes as [|b rest]; [exact Logic.I|]. destruct H as [H1 H2]. specialize (IH H2). cbn [rev] in *.
  rewrite <- app_assoc. cbn [app]. apply every_segment_app. split; [exact IH|]. split; [apply I; exact H1|exact Logic.I].
Qed.
Lemma wsum_rev g nodes : every_segment (fun a b => g b a = vopp (g a b)) nodes -> wsum g (rev nodes) = vopp (wsum g nodes).
Proof.
  induction nodes as [|a nodes IH]; intro H; [symmetry; apply vopp_0|]. cbn [rev].
  destruct nodes as [|b rest]; [symmetry; apply vopp_0|]. destruct H as [H1 H2]. specialize (IH H2). cbn [rev] in *.
  rewrite <- app_assoc. cbn [app]. rewrite wsum_app, IH. change (wsum g [b; a]) with (vadd (g b a) vzero). rewrite H1, vadd_0_r.
  change (wsum g (a :: b :: rest)) with (vadd (g a b) (wsum g (b :: rest))). rewrite vopp_add. apply vadd_comm.
Qed.

Lemma vscal_opp k v : vscal k (vopp v) = vopp (vscal k v). Proof. vring. Qed.

Lemma line_reverse nodes I sig mu p : proper_wire nodes ->
  let w := LC nodes I sig mu in let w' := LC (rev nodes) I sig mu in
  (every_segment (off_segment p) nodes -> exists A, lc_vector_potential w p = Ok A /\ lc_vector_potential w' p = Ok (vopp A)) /\
  (every_segment (off_line p) nodes -> exists B, lc_flux_density w p = Ok (Some B) /\ lc_flux_density w' p = Ok (Some (vopp B))).
Proof.
  intros H w w'. assert (H' : proper_wire (rev nodes)) by (apply (every_segment_rev proper_segment); [apply proper_rev|exact H]).
  split; intro O.
  - eexists. rewrite (A_value w p H), (A_value w' p H'). split; [reflexivity|]. cbn [lc_nodes w w' lc_mu lc_current].
    rewrite (wsum_rev (gA p) nodes), vscal_opp; [reflexivity|].
    pose proof (every_segment_and _ _ _ H O) as HO. eapply every_segment_impl; [|exact HO]. intros a b [P Q]. apply gA_rev; assumption.
  - assert (O' : every_segment (off_line p) (rev nodes)).
    { apply (every_segment_rev (fun a b => proper_segment a b /\ off_line p a b)); [|apply every_segment_and; assumption].
      intros a b [P Q]. apply off_rev; assumption. }
    eexists. rewrite (B_value w p H O), (B_value w' p H' O'). split; [reflexivity|]. cbn [lc_nodes w w' lc_mu lc_current].
    rewrite (wsum_rev (gB p) nodes), vscal_opp; [reflexivity|].
    eapply every_segment_impl; [|exact H]. intros a b P. apply gB_rev; assumption.
Qed.

(** *** C48: curl of the vector potential *)
Lemma is_curl_ext_near F G p c : near p (fun q => F q = G q) -> is_curl F p c -> is_curl G p c.
Proof. intros E [J [A B]]. exists J. split; [eapply is_jac_ext_near; eassumption|exact B]. Qed.

Lemma curl_scaled g p G u : is_grad g p G -> is_curl (fun q => vscal (g q) u) p (vcross G u).
Proof.
  intros [A [B C]]. exists (M3 (vscal (vx u) G) (vscal (vy u) G) (vscal (vz u) G)).
  assert (K : forall c, is_grad (fun q => g q * c) p (vscal c G)).
  { intro c. apply (is_grad_ext (fun q => c * g q)); [intro q; ring|]. apply is_grad_scal. split; [|split]; assumption. }
  split; [split; [|split]; apply K|]. unfold curl_of, vcross, vscal; cbn. f_equal; ring.
Qed.

Lemma vdot_bound u v : vdot u u = 1 -> Rabs (vdot u v) <= vnorm v.
Proof.
  intro U. pose proof (cauchy_schwarz u v) as C. assert (vnorm u = 1) by (apply vnorm_unique; [lra|]; change (vnorm2 u) with (vdot u u); lra).
  rewrite H in C. lra.
Qed.

Lemma fz_grad u n p : vdot u u = 1 -> 0 < vdot u (vsub p n) + vnorm (vsub p n) -> vsub p n <> vzero ->
  is_grad (fun q => fz (vdot u (vsub q n)) (vnorm (vsub q n))) p
    (vscal (- / (vdot u (vsub p n) + vnorm (vsub p n))) (vadd u (vdiv (vsub p n) (vnorm (vsub p n))))).
Proof.
  intros U H N.
  apply (is_grad_ext_near (fun q => - ln (vdot u (vsub q n) + vnorm (vsub q n)))).
  { exists ((vdot u (vsub p n) + vnorm (vsub p n)) / 2). split; [lra|]. intros q Hq.
    assert (S : 0 < vdot u (vsub q n) + vnorm (vsub q n)).
    { pose proof (vnorm_triangle_inv (vsub q n) (vsub p n)) as T.
      replace (vsub (vsub q n) (vsub p n)) with (vsub q p) in T by (destruct p, q, n; vring).
      pose proof (vdot_bound u (vsub q p) U) as D.
      replace (vdot u (vsub q p)) with (vdot u (vsub q n) - vdot u (vsub p n)) in D by (destruct u, p, q, n; vring).
      apply Rabs_le_between in T. apply Rabs_le_between in D. lra. }
    unfold fz. destruct (Reqb _ 0) eqn:Q; [apply Reqb_true in Q; lra|reflexivity]. }
  apply (is_grad_shift (fun v => - ln (vdot u v + vnorm v))).
  destruct (vsub p n) as [x y z], u as [a b c].
  pose proof (norm_dx x y z N). pose proof (norm_dy x y z N). pose proof (norm_dz x y z N). pose proof (vnorm_pos _ N).
  unfold vdot, vscal, vadd, vdiv in *; cbn [vx vy vz] in *. split_grad; (eapply is_derive_eq; [der; exact H|]); field; lra.
Qed.

Lemma off_line_sum a b p n : proper_segment a b -> off_line p a b -> (n = a \/ n = b) ->
  0 < Xc a b n p + vnorm (vsub p n) /\ vsub p n <> vzero /\
  vnorm (vsub p n) * vnorm (vsub p n) - Xc a b n p * Xc a b n p = perp2 a b p.
Proof.
  intros P O Hn. apply (off_line_perp a b p P) in O.
  assert (E : vnorm (vsub p n) * vnorm (vsub p n) - Xc a b n p * Xc a b n p = perp2 a b p).
  { rewrite vnorm_sqr. destruct Hn as [Hn|Hn]; subst n; [reflexivity|].
    rewrite <- (perp2_rev a b p P). unfold perp2, Xc. rewrite (dir_rev a b). unfold vnorm2. generalize (udir a b). intro u. destruct u, p, b; vring. }
  pose proof (vnorm_nonneg (vsub p n)). split; [nra|]. split; [|exact E].
  intro Z. unfold Xc in E. rewrite Z, vnorm_zero in E. replace (vdot (udir a b) vzero) with 0 in E by (unfold vdot, vzero; cbn; ring). lra.
Qed.

Lemma gA_curl a b p : proper_segment a b -> off_line p a b -> is_curl (fun q => gA q a b) p (gB p a b).
Proof.
  intros P O. destruct (off_line_sum a b p a P O (or_introl eq_refl)) as [Sa [Na Ea]].
  destruct (off_line_sum a b p b P O (or_intror eq_refl)) as [Sb [Nb Eb]].
  pose proof (udir_unit a b P) as U.
  pose proof (fz_grad (udir a b) a p U Sa Na) as Ga. pose proof (fz_grad (udir a b) b p U Sb Nb) as Gb.
  pose proof (curl_scaled _ _ _ (udir a b) (is_grad_sub _ _ _ _ _ Ga Gb)) as K.
  unfold gA, Xc. match type of K with is_curl _ _ ?g => replace (gB p a b) with g end; [exact K|].
  unfold gB. set (u := udir a b) in *.
  pose proof (cross_rev a b p P) as CR. fold u in CR.
  fold (Xc a b a p) (Xc a b b p) in *. unfold Xc in *. fold u in Sa, Sb, Ea, Eb |- *. unfold tB, Xc. fold u.
  apply (off_line_perp a b p P) in O. pose proof (vnorm_pos _ Na) as Pa. pose proof (vnorm_pos _ Nb) as Pb.
  set (ra := vnorm (vsub p a)) in *. set (rb := vnorm (vsub p b)) in *.
  set (Xa := vdot u (vsub p a)) in *. set (Xb := vdot u (vsub p b)) in *. set (rho := perp2 a b p) in *.
  assert (E : forall v r k, vcross (vscal k (vadd u (vdiv v r))) u = vscal (- (k / r)) (vcross u v)).
  { intros v r k. destruct u, v; unfold vcross, vscal, vadd, vdiv; cbn. f_equal; unfold Rdiv; ring. }
  assert (D : forall x y, vcross (vsub x y) u = vsub (vcross x u) (vcross y u)) by (intros x y; destruct x, y, u; vring).
  rewrite D, !E, CR. set (w := vcross u (vsub p a)).
  replace (vsub (vscal (- (- / (Xa + ra) / ra)) w) (vscal (- (- / (Xb + rb) / rb)) w)) with (vscal (/ (Xa + ra) / ra - / (Xb + rb) / rb) w)
    by (destruct w; unfold vsub, vscal; cbn; f_equal; unfold Rdiv; ring).
  f_equal.
  assert (Ka : / (Xa + ra) / ra = (ra - Xa) / (ra * rho)) by (rewrite <- Ea; field; split; [nra|lra]).
  assert (Kb : / (Xb + rb) / rb = (rb - Xb) / (rb * rho)) by (rewrite <- Eb; field; split; [nra|lra]).
  rewrite Ka, Kb. field. repeat split; lra.
Qed.

Lemma curl_wsum p nodes : proper_wire nodes -> every_segment (off_line p) nodes ->
  is_curl (fun q => wsum (gA q) nodes) p (wsum (gB p) nodes).
Proof.
  induction nodes as [|a nodes IH]; intros H O.
  - exists (M3 vzero vzero vzero). split; [split; [|split]; apply (is_grad_const 0)|symmetry; unfold curl_of, vzero; cbn; apply vec3_eq; cbn; ring].
  - destruct nodes as [|b rest].
    + exists (M3 vzero vzero vzero). split; [split; [|split]; apply (is_grad_const 0)|symmetry; unfold curl_of, vzero; cbn; apply vec3_eq; cbn; ring].
    + destruct H as [H1 H2], O as [O1 O2]. apply (is_curl_add (fun q => gA q a b) (fun q => wsum (gA q) (b :: rest))).
      * apply gA_curl; assumption.
      * apply IH; assumption.
Qed.

Lemma line_curl s p : proper_wire (lc_nodes s) -> every_segment (off_line p) (lc_nodes s) ->
  exists (A : vec3 -> vec3) (B : vec3), (forall q, lc_vector_potential s q = Ok (A q)) /\ lc_flux_density s p = Ok (Some B) /\ is_curl A p B.
Proof.
  intros H O. exists (fun q => vscal (- lc_mu s * lc_current s / (4 * PI)) (wsum (gA q) (lc_nodes s))).
  eexists. split; [intro q; apply A_value; exact H|]. split; [apply B_value; assumption|].
  apply is_curl_scal. apply curl_wsum; assumption.
Qed.
