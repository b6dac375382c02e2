(** Which strings the interferogram reads as a date and time: C79. *)
From Coq Require Import Reals String Ascii Arith Lia List Bool.
From Verif Require Import Numpy Model_Interf Spec_Interf Proof_Interf.
Import ListNotations.
Open Scope nat_scope.

Lemma lit_alike c c' s : lower c = lower c' -> lit c (String c' s) = [(tt, s)].
Proof. intro H. unfold lit. rewrite H, Ascii.eqb_refl. reflexivity. Qed.

Section Pieces.
  Variables (c c' : ascii).
  Hypothesis E : lower c = lower c'.
  Hypothesis D : digit_val (lower c) = None.
  Hypothesis D' : digit_val c' = None.
  Hypothesis B : lower c' <> " "%char.
  Lemma Hl d s : d < 10 -> lit c (String (digit d) s) = [].
  Proof. intro. now apply lit_digit. Qed.
  Lemma Hs s : lit c (String c' s) = [(tt, s)].
  Proof. now apply lit_alike. Qed.
  Lemma Hn lo hi s : dig lo hi (String c' s) = [].
  Proof. now apply digit_not. Qed.
  Lemma Hblank d s : d < 10 -> lit " " (String (digit d) s) = [].
  Proof. intro. now apply lit_digit. Qed.
  Ltac go := cbn [append]; unfold andthen, orelse, two, andthen, ret; cbn [flat_map app fst snd];
    repeat (progress (rewrite ?Hblank by lia; rewrite ?dig_digit by lia; rewrite ?Hn; cbn [andb Nat.leb flat_map app fst snd ret];
    rewrite ?Hs; rewrite ?Hl by lia; cbn [flat_map app fst snd])); rewrite ?app_nil_r; try reflexivity.
  Ltac two_digits m := enum m;
    (match goal with |- context [pad2 ?n] => let p := eval cbv -[digit] in (pad2 n) in change (pad2 n) with p end); go.
  Ltac numfield m := intros H [->|[L ->]]; [two_digits m|enum m; try (exfalso; lia); go].
  Context {A : Type}.
  Variables (s : string) (k : nat -> piece A).
  Lemma pm_num m x : 1 <= m <= 12 -> numeral m x -> andthen pm (fun m => andthen (lit c) (fun _ => k m)) (x ++ String c' s)%string = k m s.
  Proof. unfold pm. numfield m. Qed.
  Lemma pH_num m x : 0 <= m <= 23 -> numeral m x -> andthen pH (fun m => andthen (lit c) (fun _ => k m)) (x ++ String c' s)%string = k m s.
  Proof. unfold pH. numfield m. Qed.
  Lemma pM_num m x : 0 <= m <= 59 -> numeral m x -> andthen pM (fun m => andthen (lit c) (fun _ => k m)) (x ++ String c' s)%string = k m s.
  Proof. unfold pM. numfield m. Qed.
  Lemma pS_num m x : 0 <= m <= 59 -> numeral m x -> andthen pS (fun m => andthen (lit c) (fun _ => k m)) (x ++ String c' s)%string = k m s.
  Proof. unfold pS. numfield m. Qed.
  Lemma blank_digit lo hi s' : dig lo hi (String " " s') = [].
  Proof. reflexivity. Qed.
  Lemma pd_num m x : 1 <= m <= 31 -> day_numeral m x -> andthen pd (fun m => andthen (lit c) (fun _ => k m)) (x ++ String c' s)%string = k m s.
  Proof.
    intros H [[->|[L ->]]|[L ->]]; unfold pd.
    - two_digits m.
    - enum m; try (exfalso; lia); go.
    - enum m; try (exfalso; lia); cbn [append]; unfold andthen, orelse, two, andthen, ret; cbn [flat_map app fst snd]; rewrite ?blank_digit, lit_same; go.
  Qed.
End Pieces.

Lemma field_num s v r : (exists lo hi lo' hi', In (v, r) (two (dig lo hi) (dig lo' hi') s)) \/ (exists lo hi, In (v, r) (dig lo hi s)) -> exists p, s = (p ++ r)%string /\ numeral v p.
Proof.
  intros [(lo & hi & lo' & hi' & H)|(lo & hi & H)].
  - apply in_two_dig in H. exists (pad2 v). split; [exact H|left; reflexivity].
  - apply in_dig in H. destruct H as (-> & _ & L). exists (String (digit v) EmptyString). split; [reflexivity|right; now split].
Qed.
Ltac fnum H := repeat (apply in_app_or in H; destruct H as [H|H]); apply field_num; (left; do 4 eexists; exact H) || (right; do 2 eexists; exact H).
Lemma num_pm s v r : In (v, r) (pm s) -> exists p, s = (p ++ r)%string /\ numeral v p.
Proof. intro H. unfold pm, orelse in H. fnum H. Qed.
Lemma num_pH s v r : In (v, r) (pH s) -> exists p, s = (p ++ r)%string /\ numeral v p.
Proof. intro H. unfold pH, orelse in H. fnum H. Qed.
Lemma num_pM s v r : In (v, r) (pM s) -> exists p, s = (p ++ r)%string /\ numeral v p.
Proof. intro H. unfold pM, orelse in H. fnum H. Qed.
Lemma num_pS s v r : In (v, r) (pS s) -> exists p, s = (p ++ r)%string /\ numeral v p.
Proof. intro H. unfold pS, orelse in H. fnum H. Qed.
Lemma num_pd s v r : In (v, r) (pd s) -> exists p, s = (p ++ r)%string /\ day_numeral v p.
Proof.
  intro H. unfold pd, orelse in H. apply in_app_or in H. destruct H as [H|H]; [|apply in_app_or in H; destruct H as [H|H]; [|apply in_app_or in H; destruct H as [H|H]; [|apply in_app_or in H; destruct H as [H|H]]]].
  1-4: match goal with |- _ => idtac end.
  1-3: destruct (field_num s v r) as (p & E & N); [left; do 4 eexists; exact H|exists p; split; [exact E|left; exact N]].
  - destruct (field_num s v r) as (p & E & N); [right; do 2 eexists; exact H|exists p; split; [exact E|left; exact N]].
  - apply in_andthen in H. destruct H as ([] & r' & I & J). apply in_lit in I. destruct I as (c & -> & E).
    apply lower_blank in E. subst c. apply in_dig in J. destruct J as (-> & _ & L). exists (String " " (String (digit v) EmptyString)). split; [reflexivity|right; now split].
Qed.
Lemma lower_T c : lower c = lower "T" -> (c = "T" \/ c = "t")%char.
Proof. destruct c as [[] [] [] [] [] [] [] []]; cbn; intro H; try discriminate H; auto. Qed.
Lemma lower_Z c : lower c = lower "Z" -> (c = "Z" \/ c = "z")%char.
Proof. destruct c as [[] [] [] [] [] [] [] []]; cbn; intro H; try discriminate H; auto. Qed.

Lemma iso_read s t : calendar t -> iso_text t s -> strptime fmt_iso s = Ok t.
Proof.
  intros C (mo & d & T & h & mi & se & Z & N1 & N2 & HT & N3 & N4 & N5 & HZ & ->).
  unfold strptime, fmt_iso.
  pose proof (calendar_day t C) as Dy. pose proof C as (Y & Mo & _ & H & Mi & S).
  rewrite andthen_pY by lia. rewrite andthen_lit.
  rewrite (pm_num "-" "-" eq_refl eq_refl eq_refl _ _ _ _ Mo N1).
  assert (ET : lower "T" = lower T) by (destruct HT as [-> | ->]; reflexivity).
  assert (DT' : digit_val T = None) by (destruct HT as [-> | ->]; reflexivity).
  assert (EZ : lower "Z" = lower Z) by (destruct HZ as [-> | ->]; reflexivity).
  assert (DZ' : digit_val Z = None) by (destruct HZ as [-> | ->]; reflexivity).
  rewrite (pd_num "T" T ET eq_refl DT' _ _ _ _ Dy N2).
  rewrite (pH_num ":" ":" eq_refl eq_refl eq_refl _ _ (hour t) h ltac:(lia) N3).
  rewrite (pM_num ":" ":" eq_refl eq_refl eq_refl _ _ (minute t) mi ltac:(lia) N4).
  rewrite (pS_num "Z" Z EZ eq_refl DZ' _ _ (second t) se ltac:(lia) N5).
  unfold ret. apply constructible_iff in C. destruct t as [y m dd hh mm ss]. cbn [year month day hour minute second] in *.
  rewrite C. reflexivity.
Qed.
Lemma iso_only s t : strptime fmt_iso s = Ok t -> iso_text t s.
Proof.
  intro H. apply strptime_ok in H. destruct H as [H _]. unfold fmt_iso in H.
  apply in_andthen in H. destruct H as (y & r1 & Hy & H).
  apply in_andthen in H. destruct H as (u1 & r2 & Hs1 & H).
  apply in_andthen in H. destruct H as (m & r3 & Hm & H).
  apply in_andthen in H. destruct H as (u2 & r4 & Hs2 & H).
  apply in_andthen in H. destruct H as (d & r5 & Hd & H).
  apply in_andthen in H. destruct H as (u3 & r6 & Hs3 & H).
  apply in_andthen in H. destruct H as (h & r7 & Hh & H).
  apply in_andthen in H. destruct H as (u4 & r8 & Hs4 & H).
  apply in_andthen in H. destruct H as (mi & r9 & Hmi & H).
  apply in_andthen in H. destruct H as (u5 & r10 & Hs5 & H).
  apply in_andthen in H. destruct H as (se & r11 & Hse & H).
  apply in_andthen in H. destruct H as (u6 & r12 & Hs6 & H). destruct H as [[= <- ->]|[]].
  apply in_pY in Hy. apply in_lit in Hs1, Hs2, Hs3, Hs4, Hs5, Hs6.
  apply num_pm in Hm. apply num_pd in Hd. apply num_pH in Hh. apply num_pM in Hmi. apply num_pS in Hse.
  destruct Hs1 as (c1 & -> & C1). destruct Hm as (p1 & -> & M1). destruct Hs2 as (c2 & -> & C2).
  destruct Hd as (p2 & -> & D1). destruct Hs3 as (c3 & -> & C3).
  destruct Hh as (p3 & -> & H1). destruct Hs4 as (c4 & -> & C4).
  destruct Hmi as (p4 & -> & I1). destruct Hs5 as (c5 & -> & C5).
  destruct Hse as (p5 & -> & S1). destruct Hs6 as (c6 & -> & C6).
  apply lower_dash in C1, C2. apply lower_colon in C4, C5. apply lower_T in C3. apply lower_Z in C6. subst c1 c2 c4 c5.
  exists p1, p2, c3, p3, p4, p5, c6. cbn [year month day hour minute second]. repeat (split; [assumption|]). exact Hy.
Qed.
Lemma iso_exactly s t : String.length s <> 10 -> (date_time_from_json s = Ok t <-> calendar t /\ iso_text t s).
Proof.
  intro L. unfold date_time_from_json. apply Nat.eqb_neq in L. rewrite L. split.
  - intro H. split; [exact (proj2 (strptime_ok _ _ _ H))|now apply iso_only].
  - intros [C I]. now apply iso_read.
Qed.
