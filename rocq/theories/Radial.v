(** Curl and divergence of the vector fields built from radial profiles:
    f(|q|) n + g(|q|) (n.q) q   and   h(|q|) (n x q), real and complex.
    Generic mathematics: nothing here models geoana code. *)
From Coq Require Import Reals Lra.
From Coquelicot Require Import Coquelicot.
From Verif Require Import Vec3 Calculus Deriv Cplx.
Open Scope R_scope.

Definition rfield (f g : R -> R) (n q : vec3) : vec3 :=
  vadd (vscal (f (vnorm q)) n) (vscal (g (vnorm q) * vdot n q) q).
Definition xfield (h : R -> R) (n q : vec3) : vec3 := vscal (h (vnorm q)) (vcross n q).

Definition rfield_jac (f' g' gr r : R) (n q : vec3) : mat3 :=
    let d := vdot n q in
    M3 (V3 (f' * vx n * vx q / r + (g' * vx q / r * d + gr * vx n) * vx q + gr * d)
           (f' * vx n * vy q / r + (g' * vy q / r * d + gr * vy n) * vx q)
           (f' * vx n * vz q / r + (g' * vz q / r * d + gr * vz n) * vx q))
       (V3 (f' * vy n * vx q / r + (g' * vx q / r * d + gr * vx n) * vy q)
           (f' * vy n * vy q / r + (g' * vy q / r * d + gr * vy n) * vy q + gr * d)
           (f' * vy n * vz q / r + (g' * vz q / r * d + gr * vz n) * vy q))
       (V3 (f' * vz n * vx q / r + (g' * vx q / r * d + gr * vx n) * vz q)
           (f' * vz n * vy q / r + (g' * vy q / r * d + gr * vy n) * vz q)
           (f' * vz n * vz q / r + (g' * vz q / r * d + gr * vz n) * vz q + gr * d)).

Definition xfield_jac (h' hr r : R) (n q : vec3) : mat3 :=
    let c := vcross n q in
    M3 (V3 (h' * vx c * vx q / r) (h' * vx c * vy q / r - hr * vz n) (h' * vx c * vz q / r + hr * vy n))
       (V3 (h' * vy c * vx q / r + hr * vz n) (h' * vy c * vy q / r) (h' * vy c * vz q / r - hr * vx n))
       (V3 (h' * vz c * vx q / r - hr * vy n) (h' * vz c * vy q / r + hr * vx n) (h' * vz c * vz q / r)).

Lemma rfield_is_jac (f g : R -> R) (f' g' : R) (n q : vec3) : q <> vzero ->
  is_derive f (vnorm q) f' -> is_derive g (vnorm q) g' ->
  is_jac (rfield f g n) q (rfield_jac f' g' (g (vnorm q)) (vnorm q) n q).
Proof.
  intros Hq Df Dg. destruct q as [x y z].
  pose proof (vnorm_pos _ Hq) as Hp.
  pose proof (norm_dx x y z Hq) as Nx. pose proof (norm_dy x y z Hq) as Ny. pose proof (norm_dz x y z Hq) as Nz.
  assert (Fx := D_comp f (fun t => vnorm (V3 t y z)) x _ _ Df Nx).
  assert (Fy := D_comp f (fun t => vnorm (V3 x t z)) y _ _ Df Ny).
  assert (Fz := D_comp f (fun t => vnorm (V3 x y t)) z _ _ Df Nz).
  assert (Gx := D_comp g (fun t => vnorm (V3 t y z)) x _ _ Dg Nx).
  assert (Gy := D_comp g (fun t => vnorm (V3 x t z)) y _ _ Dg Ny).
  assert (Gz := D_comp g (fun t => vnorm (V3 x y t)) z _ _ Dg Nz).
  cbv beta in *.
  unfold rfield_jac, rfield, vadd, vscal, vdot. cbn [vx vy vz].
  set (r0 := vnorm (V3 x y z)) in *.
  split_jac; (eapply is_derive_eq; [der|]); cbv beta; fold r0; field; lra.
Qed.

Lemma xfield_is_jac (h : R -> R) (h' : R) (n q : vec3) : q <> vzero ->
  is_derive h (vnorm q) h' ->
  is_jac (xfield h n) q (xfield_jac h' (h (vnorm q)) (vnorm q) n q).
Proof.
  intros Hq Dh. destruct q as [x y z].
  pose proof (vnorm_pos _ Hq) as Hp.
  pose proof (norm_dx x y z Hq) as Nx. pose proof (norm_dy x y z Hq) as Ny. pose proof (norm_dz x y z Hq) as Nz.
  assert (Fx := D_comp h (fun t => vnorm (V3 t y z)) x _ _ Dh Nx).
  assert (Fy := D_comp h (fun t => vnorm (V3 x t z)) y _ _ Dh Ny).
  assert (Fz := D_comp h (fun t => vnorm (V3 x y t)) z _ _ Dh Nz).
  cbv beta in *.
  unfold xfield_jac, xfield, vscal, vcross. cbn [vx vy vz].
  set (r0 := vnorm (V3 x y z)) in *.
  split_jac; (eapply is_derive_eq; [der|]); cbv beta; fold r0; field; lra.
Qed.

Section Real.
  Variables (f g h : R -> R) (f' g' h' : R) (n q : vec3).
  Let r := vnorm q.
  Hypothesis Hq : q <> vzero.
  Hypothesis Df : is_derive f r f'.
  Hypothesis Dg : is_derive g r g'.
  Hypothesis Dh : is_derive h r h'.

  Lemma rfield_curl : is_curl (rfield f g n) q (vscal (f' / r - g r) (vcross q n)).
  Proof.
    eexists. split; [exact (rfield_is_jac f g f' g' n q Hq Df Dg)|]. fold r.
    pose proof (vnorm_pos _ Hq) as Hp. fold r in Hp.
    unfold rfield_jac, curl_of. veq; field; lra.
  Qed.

  Lemma rfield_div : is_div (rfield f g n) q ((f' / r + r * g' + 4 * g r) * vdot n q).
  Proof.
    eexists. split; [exact (rfield_is_jac f g f' g' n q Hq Df Dg)|]. fold r.
    pose proof (vnorm_pos _ Hq) as Hp. pose proof (vnorm_sqr q) as Hs. fold r in Hp, Hs.
    unfold rfield_jac, mtrace; cbn [vx vy vz m0 m1 m2].
    replace (r * g') with ((r * r) * g' / r) by (field; lra). rewrite Hs.
    unfold vnorm2, vdot. field; lra.
  Qed.

  Lemma xfield_curl :
    is_curl (xfield h n) q (vadd (vscal (h' * r + 2 * h r) n) (vscal (- (h' / r) * vdot n q) q)).
  Proof.
    eexists. split; [exact (xfield_is_jac h h' n q Hq Dh)|]. fold r.
    pose proof (vnorm_pos _ Hq) as Hp. pose proof (vnorm_sqr q) as Hs. fold r in Hp, Hs.
    replace (h' * r) with (h' * (r * r) / r) by (field; lra). rewrite Hs.
    unfold xfield_jac, curl_of, vnorm2, vdot. veq; field; lra.
  Qed.

  Lemma xfield_div : is_div (xfield h n) q 0.
  Proof.
    eexists. split; [exact (xfield_is_jac h h' n q Hq Dh)|]. fold r.
    pose proof (vnorm_pos _ Hq) as Hp. fold r in Hp.
    unfold xfield_jac, mtrace; simpl. field; lra.
  Qed.
End Real.

Definition crfield (f g : R -> C) (n q : vec3) : cvec :=
  cvadd (cvof (f (vnorm q)) n) (cvof (g (vnorm q) * RtoC (vdot n q))%C q).
Definition cxfield (h : R -> C) (n q : vec3) : cvec := cvof (h (vnorm q)) (vcross n q).

Ltac parts := unfold re_vec, im_vec, cvadd, cvsub, cvof, cvscal, vadd, vsub, vscal, Cmult, Cplus, Cminus, Copp, RtoC; cbn [cvx cvy cvz vx vy vz fst snd].

Lemma crfield_re f g n q : re_vec (crfield f g n q) = rfield (fun t => Re (f t)) (fun t => Re (g t)) n q.
Proof. unfold crfield, rfield; parts. veq; ring. Qed.
Lemma crfield_im f g n q : im_vec (crfield f g n q) = rfield (fun t => Im (f t)) (fun t => Im (g t)) n q.
Proof. unfold crfield, rfield; parts. veq; ring. Qed.
Lemma cxfield_re h n q : re_vec (cxfield h n q) = xfield (fun t => Re (h t)) n q.
Proof. unfold cxfield, xfield; parts. veq; ring. Qed.
Lemma cxfield_im h n q : im_vec (cxfield h n q) = xfield (fun t => Im (h t)) n q.
Proof. unfold cxfield, xfield; parts. veq; ring. Qed.

Lemma is_curl_ext' F G p c d : (forall q, F q = G q) -> c = d -> is_curl F p c -> is_curl G p d.
Proof.
  intros E <- [J [[A [B C]] K]]. exists J. split; [|exact K].
  assert (X : forall (f g : vec3 -> R) g', (forall q, f q = g q) -> is_grad f p g' -> is_grad g p g').
  { intros f g g' H [P [Q S]]. split; [|split].
    - apply (D_ext (fun t => f (V3 t (vy p) (vz p)))); [intro; apply H|exact P].
    - apply (D_ext (fun t => f (V3 (vx p) t (vz p)))); [intro; apply H|exact Q].
    - apply (D_ext (fun t => f (V3 (vx p) (vy p) t))); [intro; apply H|exact S]. }
  split; [|split].
  - apply (X (fun q => vx (F q))); [intro; rewrite E; reflexivity|exact A].
  - apply (X (fun q => vy (F q))); [intro; rewrite E; reflexivity|exact B].
  - apply (X (fun q => vz (F q))); [intro; rewrite E; reflexivity|exact C].
Qed.

Lemma is_div_ext' F G p c d : (forall q, F q = G q) -> c = d -> is_div F p c -> is_div G p d.
Proof.
  intros E <- [J [[A [B C]] K]]. exists J. split; [|exact K].
  assert (X : forall (f g : vec3 -> R) g', (forall q, f q = g q) -> is_grad f p g' -> is_grad g p g').
  { intros f g g' H [P [Q S]]. split; [|split].
    - apply (D_ext (fun t => f (V3 t (vy p) (vz p)))); [intro; apply H|exact P].
    - apply (D_ext (fun t => f (V3 (vx p) t (vz p)))); [intro; apply H|exact Q].
    - apply (D_ext (fun t => f (V3 (vx p) (vy p) t))); [intro; apply H|exact S]. }
  split; [|split].
  - apply (X (fun q => vx (F q))); [intro; rewrite E; reflexivity|exact A].
  - apply (X (fun q => vy (F q))); [intro; rewrite E; reflexivity|exact B].
  - apply (X (fun q => vz (F q))); [intro; rewrite E; reflexivity|exact C].
Qed.

Lemma is_ccurl_ext F G p c d : (forall q, F q = G q) -> c = d -> is_ccurl F p c -> is_ccurl G p d.
Proof.
  intros E <- [A B]. split.
  - revert A; apply is_curl_ext'; [intro; rewrite E|]; reflexivity.
  - revert B; apply is_curl_ext'; [intro; rewrite E|]; reflexivity.
Qed.

Lemma is_cdiv_ext F G p c d : (forall q, F q = G q) -> c = d -> is_cdiv F p c -> is_cdiv G p d.
Proof.
  intros E <- [A B]. split.
  - revert A; apply is_div_ext'; [intro; rewrite E|]; reflexivity.
  - revert B; apply is_div_ext'; [intro; rewrite E|]; reflexivity.
Qed.

Lemma is_ccurl_shift F p0 p c : is_ccurl F (vsub p p0) c -> is_ccurl (fun q => F (vsub q p0)) p c.
Proof.
  intros [A B]. split.
  - exact (is_curl_shift (fun q => re_vec (F q)) p0 p _ A).
  - exact (is_curl_shift (fun q => im_vec (F q)) p0 p _ B).
Qed.

Lemma is_cdiv_shift F p0 p c : is_cdiv F (vsub p p0) c -> is_cdiv (fun q => F (vsub q p0)) p c.
Proof.
  intros [A B]. split.
  - exact (is_div_shift (fun q => re_vec (F q)) p0 p _ A).
  - exact (is_div_shift (fun q => im_vec (F q)) p0 p _ B).
Qed.

Section Complex.
  Variables (f g h : R -> C) (f' g' h' : C) (n q : vec3).
  Let r := vnorm q.
  Hypothesis Hq : q <> vzero.
  Hypothesis Df : is_cderive f r f'.
  Hypothesis Dg : is_cderive g r g'.
  Hypothesis Dh : is_cderive h r h'.

  Lemma rpos : 0 < r.
  Proof. exact (vnorm_pos _ Hq). Qed.

  Lemma crfield_curl : is_ccurl (crfield f g n) q (cvof (f' / r - g r)%C (vcross q n)).
  Proof.
    pose proof rpos as Hp. destruct Df as [F1 F2], Dg as [G1 G2]. split.
    - eapply is_curl_ext'; [intro; symmetry; apply crfield_re| |exact (rfield_curl _ _ _ _ n q Hq F1 G1)].
      fold r. unfold Cdiv, Cinv. parts. veq; field; lra.
    - eapply is_curl_ext'; [intro; symmetry; apply crfield_im| |exact (rfield_curl _ _ _ _ n q Hq F2 G2)].
      fold r. unfold Cdiv, Cinv. parts. veq; field; lra.
  Qed.

  Lemma crfield_div : is_cdiv (crfield f g n) q ((f' / r + r * g' + 4 * g r) * RtoC (vdot n q))%C.
  Proof.
    pose proof rpos as Hp. destruct Df as [F1 F2], Dg as [G1 G2]. split.
    - eapply is_div_ext'; [intro; symmetry; apply crfield_re| |exact (rfield_div _ _ _ _ n q Hq F1 G1)].
      fold r. unfold Cdiv, Cinv. parts. field; lra.
    - eapply is_div_ext'; [intro; symmetry; apply crfield_im| |exact (rfield_div _ _ _ _ n q Hq F2 G2)].
      fold r. unfold Cdiv, Cinv. parts. field; lra.
  Qed.

  Lemma cxfield_curl :
    is_ccurl (cxfield h n) q
      (cvadd (cvof (h' * r + 2 * h r)%C n) (cvof (- (h' / r) * RtoC (vdot n q))%C q)).
  Proof.
    pose proof rpos as Hp. destruct Dh as [F1 F2]. split.
    - eapply is_curl_ext'; [intro; symmetry; apply cxfield_re| |exact (xfield_curl _ _ n q Hq F1)].
      fold r. unfold Cdiv, Cinv. parts. veq; field; lra.
    - eapply is_curl_ext'; [intro; symmetry; apply cxfield_im| |exact (xfield_curl _ _ n q Hq F2)].
      fold r. unfold Cdiv, Cinv. parts. veq; field; lra.
  Qed.

  Lemma cxfield_div : is_cdiv (cxfield h n) q (RtoC 0).
  Proof.
    pose proof rpos as Hp. destruct Dh as [F1 F2]. split.
    - eapply is_div_ext'; [intro; symmetry; apply cxfield_re| |exact (xfield_div _ _ n q Hq F1)]. reflexivity.
    - eapply is_div_ext'; [intro; symmetry; apply cxfield_im| |exact (xfield_div _ _ n q Hq F2)]. reflexivity.
  Qed.
End Complex.
