From Coq Require Import Reals Lra Lia List Bool.
From Coquelicot Require Import Coquelicot.
From Verif Require Import Vec3 Numpy Calculus Deriv Integral CurveDeriv Model_Spatial Proof_Spatial Model_Prism Model_Static Spec_Static Proof_Static Proof_Static2 Proof_Line.
Import ListNotations.
Open Scope R_scope.

Lemma vadd_0_r v : vadd v vzero = v. Proof. destruct v; vring. Qed.
Lemma vadd_0_l v : vadd vzero v = v. Proof. destruct v; vring. Qed.
Lemma vadd_assoc a b c : vadd (vadd a b) c = vadd a (vadd b c). Proof. vring. Qed.
Lemma vadd_comm a b : vadd a b = vadd b a. Proof. vring. Qed.
Lemma vscal_add k a b : vscal k (vadd a b) = vadd (vscal k a) (vscal k b). Proof. vring. Qed.
Lemma vscal_0 k : vscal k vzero = vzero. Proof. unfold vscal, vzero; cbn; f_equal; ring. Qed.
Lemma vopp_scal' k v : vopp (vscal k v) = vscal (- k) v. Proof. vring. Qed.
Lemma vopp_0 : vopp vzero = vzero. Proof. unfold vopp, vzero; cbn; f_equal; ring. Qed.
Lemma vopp_add a b : vopp (vadd a b) = vadd (vopp a) (vopp b). Proof. vring. Qed.

Lemma segments_cons a b l : segments (a :: b :: l) = (a, b) :: segments (b :: l).
Proof. reflexivity. Qed.

(** sum of a per-segment quantity along the polyline *)
Fixpoint wsum (g : vec3 -> vec3 -> vec3) (nodes : list vec3) : vec3 :=
  match nodes with a :: ((b :: _) as rest) => vadd (g a b) (wsum g rest) | _ => vzero end.

Lemma sum_segments_wsum f g nodes : forall out, every_segment (fun a b => f a b = Ok (g a b)) nodes ->
  sum_segments f (segments nodes) out = Ok (vadd out (wsum g nodes)).
Proof.
  induction nodes as [|a nodes IH]; intros out H; [cbn; rewrite vadd_0_r; reflexivity|].
  destruct nodes as [|b rest]; [cbn; rewrite vadd_0_r; reflexivity|].
  destruct H as [H1 H2]. rewrite segments_cons. cbn [sum_segments]. rewrite H1. cbn [rbind]. rewrite (IH _ H2). 
  cbn [wsum]. rewrite vadd_assoc. reflexivity.
Qed.

Lemma every_segment_impl (P Q : vec3 -> vec3 -> Prop) nodes : (forall a b, P a b -> Q a b) -> every_segment P nodes -> every_segment Q nodes.
Proof.
  intros I. induction nodes as [|a nodes IH]; [auto|]. destruct nodes as [|b rest]; [auto|]. intros [H1 H2]. split; [auto|apply IH; exact H2].
Qed.
Lemma every_segment_and P Q nodes : every_segment P nodes -> every_segment Q nodes -> every_segment (fun a b => P a b /\ Q a b) nodes.
Proof.
  induction nodes as [|a nodes IH]; [auto|]. destruct nodes as [|b rest]; [auto|]. intros [H1 H2] [H3 H4]. split; [auto|apply IH; assumption].
Qed.

Definition gA (p a b : vec3) : vec3 := vscal (fz (Xc a b a p) (vnorm (vsub p a)) - fz (Xc a b b p) (vnorm (vsub p b))) (udir a b).
Definition gB (p a b : vec3) : vec3 := vscal (tB a b p / perp2 a b p) (vcross (udir a b) (vsub p a)).

Definition proper_wire := every_segment proper_segment.

Lemma A_value s p : proper_wire (lc_nodes s) ->
  lc_vector_potential s p = Ok (vscal (- lc_mu s * lc_current s / (4 * PI)) (wsum (gA p) (lc_nodes s))).
Proof.
  intro H. unfold lc_vector_potential. rewrite (sum_segments_wsum _ (gA p)).
  - cbn [rbind]. rewrite vadd_0_l. reflexivity.
  - eapply every_segment_impl; [|exact H]. intros a b P. apply seg_A_closed; exact P.
Qed.

Lemma sum_B_some p nodes : forall out, proper_wire nodes -> every_segment (off_line p) nodes ->
  sum_segments_B p (segments nodes) (Some out) = Ok (Some (vadd out (wsum (gB p) nodes))).
Proof.
  induction nodes as [|a nodes IH]; intros out H O; [cbn; rewrite vadd_0_r; reflexivity|].
  destruct nodes as [|b rest]; [cbn; rewrite vadd_0_r; reflexivity|].
  destruct H as [H1 H2], O as [O1 O2]. rewrite segments_cons. cbn [sum_segments_B]. rewrite (seg_B_closed a b p H1 O1). cbn [rbind obind]. rewrite (IH _ H2 O2). 
  cbn [wsum]. rewrite vadd_assoc. reflexivity.
Qed.
Lemma sum_B_none_acc p nodes : proper_wire nodes -> sum_segments_B p (segments nodes) None = Ok None.
Proof.
  induction nodes as [|a nodes IH]; intros H; [reflexivity|].
  destruct nodes as [|b rest]; [reflexivity|]. destruct H as [H1 H2]. rewrite segments_cons. cbn [sum_segments_B].
  assert (exists d, seg_B a b p = Ok d) as [d E].
  { destruct (Rlt_dec 0 (perp2 a b p)) as [Q|Q].
    - eexists. apply (seg_B_closed a b p H1). apply off_line_perp; assumption.
    - eexists. apply (seg_B_none a b p H1). rewrite off_line_perp; assumption. }
  rewrite E. cbn [rbind obind]. apply IH; exact H2.
Qed.
Lemma sum_B_none p nodes : forall out, proper_wire nodes -> ~ every_segment (off_line p) nodes ->
  sum_segments_B p (segments nodes) (Some out) = Ok None.
Proof.
  induction nodes as [|a nodes IH]; intros out H O; [exfalso; apply O; exact I|].
  destruct nodes as [|b rest]; [exfalso; apply O; exact I|].
  destruct H as [H1 H2]. rewrite segments_cons. cbn [sum_segments_B].
  destruct (Rlt_dec 0 (perp2 a b p)) as [Q|Q].
  - assert (O1 : off_line p a b) by (apply off_line_perp; assumption).
    rewrite (seg_B_closed a b p H1 O1). cbn [rbind obind]. apply IH; [exact H2|]. intro W. apply O. split; assumption.
  - rewrite (seg_B_none a b p H1) by (rewrite off_line_perp; assumption). cbn [rbind obind]. apply sum_B_none_acc; exact H2.
Qed.

Lemma B_value s p : proper_wire (lc_nodes s) -> every_segment (off_line p) (lc_nodes s) ->
  lc_flux_density s p = Ok (Some (vscal (- lc_mu s * lc_current s / (4 * PI)) (wsum (gB p) (lc_nodes s)))).
Proof. intros H O. unfold lc_flux_density. rewrite (sum_B_some p _ vzero H O). cbn [rbind obind]. rewrite vadd_0_l. reflexivity. Qed.
Lemma B_none s p : proper_wire (lc_nodes s) -> ~ every_segment (off_line p) (lc_nodes s) -> lc_flux_density s p = Ok None.
Proof. intros H O. unfold lc_flux_density. rewrite (sum_B_none p _ vzero H O). reflexivity. Qed.

(** *** integrals along the wire *)
Lemma wsum_ext g h nodes : every_segment (fun a b => g a b = h a b) nodes -> wsum g nodes = wsum h nodes.
Proof.
  induction nodes as [|a nodes IH]; [auto|]. destruct nodes as [|b rest]; [auto|]. intros [H1 H2]. cbn [wsum]. rewrite H1. f_equal. apply IH; exact H2.
Qed.
Lemma wsum_opp g nodes : wsum (fun a b => vopp (g a b)) nodes = vopp (wsum g nodes).
Proof.
  induction nodes as [|a nodes IH]; [symmetry; apply vopp_0|]. destruct nodes as [|b rest]; [symmetry; apply vopp_0|]. cbn [wsum] in *. rewrite IH, vopp_add. reflexivity.
Qed.
Lemma wire_integral_wsum K g nodes : every_segment (fun a b => is_vec_RInt (fun s => K (vsub b a) (on_seg a b s)) (g a b)) nodes ->
  is_wire_integral K nodes (wsum g nodes).
Proof.
  induction nodes as [|a nodes IH]; [reflexivity|]. destruct nodes as [|b rest]; [reflexivity|]. intros [H1 H2].
  exists (g a b), (wsum g (b :: rest)). split; [exact H1|]. split; [apply IH; exact H2|reflexivity].
Qed.

Lemma line_biot_savart s p : proper_wire (lc_nodes s) -> every_segment (off_line p) (lc_nodes s) ->
  exists V, is_wire_integral (biot_savart p) (lc_nodes s) V /\
    lc_flux_density s p = Ok (Some (vscal (lc_mu s * lc_current s / (4 * PI)) V)).
Proof.
  intros H O. exists (wsum (fun a b => vopp (gB p a b)) (lc_nodes s)). split.
  - apply wire_integral_wsum. pose proof (every_segment_and _ _ _ H O) as HO. eapply every_segment_impl; [|exact HO].
    intros a b [P Q]. replace (vopp (gB p a b)) with (vscal (- tB a b p / perp2 a b p) (vcross (udir a b) (vsub p a))).
    + apply seg_biot_savart; assumption.
    + unfold gB. rewrite vopp_scal'. f_equal. unfold Rdiv; ring.
  - rewrite (B_value s p H O), wsum_opp. do 2 f_equal. generalize (wsum (gB p) (lc_nodes s)). intro v. destruct v; unfold vscal, vopp; cbn; f_equal; unfold Rdiv; ring.
Qed.

Lemma line_vector_potential s p : proper_wire (lc_nodes s) -> every_segment (off_segment p) (lc_nodes s) ->
  exists V, is_wire_integral (dl_over_r p) (lc_nodes s) V /\
    lc_vector_potential s p = Ok (vscal (lc_mu s * lc_current s / (4 * PI)) V).
Proof.
  intros H O. exists (wsum (fun a b => vopp (gA p a b)) (lc_nodes s)). split.
  - apply wire_integral_wsum. pose proof (every_segment_and _ _ _ H O) as HO. eapply every_segment_impl; [|exact HO].
    intros a b [P Q]. replace (vopp (gA p a b)) with (vscal (fz (Xc a b b p) (vnorm (vsub p b)) - fz (Xc a b a p) (vnorm (vsub p a))) (udir a b)).
    + apply seg_dl_over_r; assumption.
    + unfold gA. rewrite vopp_scal'. f_equal. ring.
  - rewrite (A_value s p H), wsum_opp. f_equal. generalize (wsum (gA p) (lc_nodes s)). intro v. destruct v; unfold vscal, vopp; cbn; f_equal; unfold Rdiv; ring.
Qed.

Lemma line_finite_iff s p : proper_wire (lc_nodes s) ->
  ((exists b, lc_flux_density s p = Ok (Some b)) <-> every_segment (off_line p) (lc_nodes s)) /\
  (~ every_segment (off_line p) (lc_nodes s) -> lc_flux_density s p = Ok None).
Proof.
  intro H. split; [|apply B_none; exact H]. split.
  - intros [b E].
    assert (D : every_segment (off_line p) (lc_nodes s) \/ ~ every_segment (off_line p) (lc_nodes s)).
    { clear E. induction (lc_nodes s) as [|x l IH]; [left; exact I|]. destruct l as [|y r]; [left; exact I|].
      destruct H as [H1 H2]. destruct (IH H2) as [A|A]; [|right; intros [_ B]; contradiction].
      destruct (Rlt_dec 0 (perp2 x y p)) as [Q|Q]; [left; split; [apply off_line_perp; assumption|exact A]|].
      right. intros [B _]. apply (off_line_perp x y p H1) in B. contradiction. }
    destruct D as [D|D]; [exact D|]. rewrite (B_none s p H D) in E. discriminate.
  - intro O. eexists. apply B_value; assumption.
Qed.

Lemma line_not_finite_example :
  let s := LC [V3 0 0 0; V3 1 0 0] 1 1 1 in
  proper_wire (lc_nodes s) /\ every_segment (off_segment (V3 2 0 0)) (lc_nodes s) /\ lc_flux_density s (V3 2 0 0) = Ok None.
Proof.
  cbv zeta. cbn [lc_nodes].
  assert (N1 : vsub (V3 1 0 0) (V3 0 0 0) = V3 1 0 0) by (unfold vsub; cbn; f_equal; ring).
  assert (N2 : vnorm (V3 1 0 0) = 1) by (apply vnorm_unique; [lra|]; unfold vnorm2; cbn; ring).
  assert (P : proper_segment (V3 0 0 0) (V3 1 0 0)).
  { split; [intro E; apply V3_inj in E; lra|]. cbv zeta. right. rewrite N1, N2. unfold vcross, vscal, vzero; cbn. f_equal; field. }
  split; [split; [exact P|exact I]|]. split.
  - split; [|exact I]. intros s Hs E. unfold on_seg in E. rewrite N1 in E. unfold vadd, vscal in E; cbn in E. apply V3_inj in E. lra.
  - apply B_none; [split; [exact P|exact I]|]. intros [O _]. apply O. rewrite N1. unfold vcross, vsub, vzero; cbn. f_equal; ring.
Qed.
