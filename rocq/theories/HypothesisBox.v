(** Guards that are boxes of half-integer codes: the shape of every guard of a
    hypothesis, and what adjacent/unionHull do on the boxes of the rows met by
    one delay. *)
From Coq Require Import QArith Qround ZArith Bool List Arith Lia Lqa.
From Verif Require Import BoundsModel ConstraintModel GuardSpec BoundsProofs ConstraintProofs ConstraintProofs2 ConstraintProofs4.
Import ListNotations.
Open Scope Q_scope.

(** 2n for the integer n, 2n+1 for the open interval (n, n+1) *)
Definition code (q : Q) : Z := if Qeq_bool q (inject_Z (Qfloor q)) then (2 * Qfloor q)%Z else (2 * Qfloor q + 1)%Z.
Definition ubZ (c : Z) : ibounds := if Z.even c then ((c / 2)%Z, true) else (((c + 1) / 2)%Z, false).
Definition lbZ (c : Z) : ibounds := ((c / 2)%Z, Z.even c).

Lemma code_cases q : (exists n, q == inject_Z n /\ code q = (2 * n)%Z) \/
  (exists n, inject_Z n < q /\ q < inject_Z (n + 1) /\ code q = (2 * n + 1)%Z).
Proof.
  unfold code. assert (L := Qfloor_le q). assert (U := Qlt_floor q).
  destruct (Qeq_bool q (inject_Z (Qfloor q))) eqn:E.
  - left. exists (Qfloor q). split; [apply Qeq_bool_eq; auto|auto].
  - right. exists (Qfloor q). split; [|split; [exact U|auto]].
    apply Qeq_bool_neq in E. destruct (Qlt_le_dec (inject_Z (Qfloor q)) q); [auto|exfalso; apply E; lra].
Qed.
Lemma inj_lt a b : inject_Z a < inject_Z b <-> (a < b)%Z.
Proof. rewrite <- Zlt_Qlt. reflexivity. Qed.
Lemma inj_le a b : inject_Z a <= inject_Z b <-> (a <= b)%Z.
Proof. rewrite <- Zle_Qle. reflexivity. Qed.
Lemma inj_ltZ a b : inject_Z a < inject_Z b -> (a < b)%Z.
Proof. apply inj_lt. Qed.
Lemma inj_leZ a b : inject_Z a <= inject_Z b -> (a <= b)%Z.
Proof. apply inj_le. Qed.
Lemma inj_ltQ a b : (a < b)%Z -> inject_Z a < inject_Z b.
Proof. apply inj_lt. Qed.
Lemma inj_leQ a b : (a <= b)%Z -> inject_Z a <= inject_Z b.
Proof. apply inj_le. Qed.
Lemma inj_succ n : inject_Z (n + 1) == inject_Z n + 1.
Proof. rewrite inject_Z_plus. reflexivity. Qed.
Lemma code_le_even q m : (code q <= 2 * m)%Z <-> q <= inject_Z m.
Proof.
  destruct (code_cases q) as [(n & E & ->)|(n & L & U & ->)].
  - rewrite E, inj_le. lia.
  - rewrite inj_succ in U. split; intro H.
    + assert (H1 : (n + 1 <= m)%Z) by lia. apply inj_leQ in H1. rewrite inj_succ in H1. lra.
    + assert (H1 : inject_Z n < inject_Z m) by lra. apply inj_ltZ in H1. lia.
Qed.
Lemma code_le_odd q m : (code q <= 2 * m + 1)%Z <-> q < inject_Z (m + 1).
Proof.
  destruct (code_cases q) as [(n & E & ->)|(n & L & U & ->)].
  - rewrite E, inj_lt. lia.
  - split; intro H.
    + assert (H1 : (n + 1 <= m + 1)%Z) by lia. apply inj_leQ in H1. lra.
    + assert (H1 : inject_Z n < inject_Z (m + 1)) by lra. apply inj_ltZ in H1. lia.
Qed.
Lemma code_ge_even q m : (2 * m <= code q)%Z <-> inject_Z m <= q.
Proof.
  assert (H := code_le_odd q (m - 1)). replace (m - 1 + 1)%Z with m in H by lia. split; intro A.
  - destruct (Qlt_le_dec q (inject_Z m)) as [L|L]; [apply H in L; lia|auto].
  - destruct (Z.le_gt_cases (2 * m) (code q)) as [L|L]; [auto|exfalso]. assert (L' : (code q <= 2 * (m - 1) + 1)%Z) by lia. apply H in L'. lra.
Qed.
Lemma code_ge_odd q m : (2 * m + 1 <= code q)%Z <-> inject_Z m < q.
Proof.
  assert (H := code_le_even q m). split; intro A.
  - destruct (Qlt_le_dec (inject_Z m) q) as [L|L]; [auto|apply H in L; lia].
  - destruct (Z.le_gt_cases (2 * m + 1) (code q)) as [L|L]; [auto|exfalso]. assert (L' : (code q <= 2 * m)%Z) by lia. apply H in L'. lra.
Qed.
Lemma code_mono p q : p <= q -> (code p <= code q)%Z.
Proof.
  intro H. destruct (code_cases p) as [(n & E & ->)|(n & L & U & ->)].
  - apply code_ge_even. lra.
  - apply code_ge_odd. lra.
Qed.
Lemma code_ext p q : p == q -> code p = code q.
Proof. intro H. assert (code p <= code q)%Z by (apply code_mono; lra). assert (code q <= code p)%Z by (apply code_mono; lra). lia. Qed.
Lemma code_even q : Z.even (code q) = true -> exists n, q == inject_Z n.
Proof.
  destruct (code_cases q) as [(n & E & ->)|(n & L & U & ->)]; intro H; [eauto|]. exfalso.
  rewrite Z.even_add, Z.even_mul in H. cbn in H. discriminate.
Qed.
Lemma code_int n : code (inject_Z n) = (2 * n)%Z.
Proof.
  assert (code (inject_Z n) <= 2 * n)%Z by (apply code_le_even; lra).
  assert (2 * n <= code (inject_Z n))%Z by (apply code_ge_even; lra). lia.
Qed.
Lemma code_even_iff q : Z.even (code q) = true <-> exists n, q == inject_Z n.
Proof.
  split; [apply code_even|]. intros [n E]. rewrite (code_ext _ _ E), code_int, Z.even_mul. reflexivity.
Qed.
Lemma code_nonneg q : 0 <= q -> (0 <= code q)%Z.
Proof. intro H. change 0%Z with (2 * 0)%Z. apply code_ge_even. exact H. Qed.
(** the same code: the same point or the same open unit interval *)
Lemma code_eq_iff p q : code p = code q <->
  (exists n, p == inject_Z n /\ q == inject_Z n) \/
  (exists n, inject_Z n < p /\ p < inject_Z (n + 1) /\ inject_Z n < q /\ q < inject_Z (n + 1)).
Proof.
  split.
  - intro H. destruct (code_cases p) as [(n & E & C)|(n & L & U & C)], (code_cases q) as [(m & E' & C')|(m & L' & U' & C')]; try lia.
    + left. exists n. assert (n = m) by lia. subst m. auto.
    + right. exists n. assert (n = m) by lia. subst m. auto.
  - intros [(n & A & B)|(n & A & B & C & D)].
    + rewrite (code_ext _ _ A), (code_ext _ _ B). auto.
    + assert ((code p <= 2 * n + 1)%Z) by (apply code_le_odd; auto). assert ((code q <= 2 * n + 1)%Z) by (apply code_le_odd; auto).
      assert ((2 * n + 1 <= code p)%Z) by (apply code_ge_odd; auto). assert ((2 * n + 1 <= code q)%Z) by (apply code_ge_odd; auto). lia.
Qed.

Lemma parity c : (exists m, c = 2 * m /\ Z.even c = true /\ c / 2 = m)%Z \/
                 (exists m, c = 2 * m + 1 /\ Z.even c = false /\ c / 2 = m /\ (c + 1) / 2 = m + 1)%Z.
Proof.
  destruct (Z.Even_or_Odd c) as [[m ->]|[m ->]]; [left|right]; exists m.
  - rewrite Z.even_mul. repeat split; auto. rewrite Z.mul_comm, Z.div_mul; lia.
  - rewrite Z.even_add, Z.even_mul. repeat split; auto.
    + rewrite Z.add_comm, Z.mul_comm, Z.div_add; [reflexivity|lia].
    + replace (2 * m + 1 + 1)%Z with ((m + 1) * 2)%Z by lia. rewrite Z.div_mul; lia.
Qed.
Lemma ubZ_ok c d : (c < 2 * INT_MAX - 1)%Z -> (upOk (ubZ c) d <-> (code d <= c)%Z).
Proof.
  intro Hc. unfold upOk, ubZ. destruct (parity c) as [(m & -> & E & D)|(m & -> & E & D & D')]; rewrite E.
  - rewrite D. cbn [fst snd]. rewrite code_le_even. split; [intros [H|H]; [discriminate H|auto]|auto].
  - rewrite D'. cbn [fst snd]. rewrite code_le_odd. split; [intros [H|H]; [|auto]|auto]. unfold maxUB in H. injection H as H. lia.
Qed.
Lemma lbZ_ok c d : loOk (lbZ c) d <-> (c <= code d)%Z.
Proof.
  unfold loOk, lbZ. destruct (parity c) as [(m & -> & E & D)|(m & -> & E & D & _)]; rewrite E, D; cbn [fst snd].
  - symmetry. apply code_ge_even.
  - symmetry. apply code_ge_odd.
Qed.
Lemma half_between m : inject_Z m < inject_Z m + (1#2) /\ inject_Z m + (1#2) < inject_Z (m + 1).
Proof. rewrite inj_succ. split; lra. Qed.
Lemma code_half m : code (inject_Z m + (1#2)) = (2 * m + 1)%Z.
Proof.
  destruct (half_between m) as [A B].
  assert ((code (inject_Z m + (1#2)) <= 2 * m + 1)%Z) by (apply code_le_odd; auto).
  assert ((2 * m + 1 <= code (inject_Z m + (1#2)))%Z) by (apply code_ge_odd; auto). lia.
Qed.
(** the bounds of a row are determined by what they accept *)
Lemma ub_unique u h : (0 <= h)%Z -> (forall d, 0 <= d -> (upOk u d <-> (code d <= h)%Z)) -> u = ubZ h /\ u <> maxUB.
Proof.
  intros Hh H.
  assert (N : u <> maxUB).
  { intro E. subst u. assert (U : upOk maxUB (inject_Z (h + 1))) by (left; reflexivity).
    apply H in U; [rewrite code_int in U; lia|]. change 0 with (inject_Z 0). apply inj_le. lia. }
  split; [|exact N]. destruct u as [u us]. unfold ubZ. destruct (parity h) as [(m & -> & E & D)|(m & -> & E & D & D')]; rewrite E.
  - rewrite D. assert (M0 : 0 <= inject_Z m) by (change 0 with (inject_Z 0); apply inj_le; lia).
    assert (A := H (inject_Z m) M0). assert (B := H (inject_Z m + (1#2)) ltac:(lra)). rewrite code_int in A. rewrite code_half in B.
    unfold upOk in A, B. cbn [fst snd] in A, B. destruct A as [_ A]. specialize (A ltac:(lia)). destruct A as [A|A]; [congruence|].
    destruct us.
    + assert ((m <= u)%Z) by (apply inj_le; auto). destruct (Z.eq_dec u m) as [->|Ne]; [reflexivity|exfalso].
      assert (Lt : (m + 1 <= u)%Z) by lia. apply inj_leQ in Lt. rewrite inj_succ in Lt.
      assert (X : (2 * m + 1 <= 2 * m)%Z) by (apply B; right; lra). lia.
    + exfalso. assert (Lt : (m + 1 <= u)%Z) by (apply inj_ltZ in A; lia). apply inj_leQ in Lt. rewrite inj_succ in Lt.
      assert (X : (2 * m + 1 <= 2 * m)%Z) by (apply B; right; lra). lia.
  - rewrite D'. assert (M0 : 0 <= inject_Z m) by (change 0 with (inject_Z 0); apply inj_le; lia).
    assert (A := H (inject_Z m + (1#2)) ltac:(lra)). rewrite code_half in A.
    assert (B := H (inject_Z (m + 1)) ltac:(rewrite inj_succ; lra)). rewrite code_int in B.
    unfold upOk in A, B. cbn [fst snd] in A, B. destruct A as [_ A]. specialize (A ltac:(lia)). destruct A as [A|A]; [congruence|].
    assert (Lt : (m + 1 <= u)%Z). { assert (inject_Z m < inject_Z u) by (destruct us; lra). apply inj_ltZ in H0. lia. }
    destruct us.
    + exfalso. assert (X : (2 * (m + 1) <= 2 * m + 1)%Z) by (apply B; right; apply inj_le; auto). lia.
    + destruct (Z.eq_dec u (m + 1)) as [->|Ne]; [reflexivity|exfalso].
      assert (X : (2 * (m + 1) <= 2 * m + 1)%Z) by (apply B; right; apply inj_lt; lia). lia.
Qed.
Lemma lb_unique l c : (0 <= c)%Z -> (0 <= fst l)%Z -> (forall d, 0 <= d -> (loOk l d <-> (c <= code d)%Z)) -> l = lbZ c.
Proof.
  intros Hc Hl H. destruct l as [l ls]. cbn [fst] in Hl. unfold lbZ. destruct (parity c) as [(m & -> & E & D)|(m & -> & E & D & _)]; rewrite E, D.
  - assert (M0 : 0 <= inject_Z m) by (change 0 with (inject_Z 0); apply inj_le; lia).
    assert (A := H (inject_Z m) M0). rewrite code_int in A. unfold loOk in A. cbn [fst snd] in A. destruct A as [_ A]. specialize (A ltac:(lia)).
    assert (Q : (l < m)%Z -> False).
    { intro Lt. assert (H1 : (l <= m - 1)%Z) by lia. assert (M1 : 0 <= inject_Z (m - 1)) by (change 0 with (inject_Z 0); apply inj_le; lia).
      assert (B := H (inject_Z (m - 1) + (1#2)) ltac:(lra)). rewrite code_half in B. unfold loOk in B. cbn [fst snd] in B.
      apply inj_leQ in H1. assert (X : (2 * m <= 2 * (m - 1) + 1)%Z) by (apply B; destruct ls; lra). lia. }
    destruct ls; [|exfalso; apply Q; apply inj_lt; auto]. assert ((l <= m)%Z) by (apply inj_le; auto). f_equal. destruct (Z.eq_dec l m); [auto|exfalso; apply Q; lia].
  - assert (M0 : 0 <= inject_Z m) by (change 0 with (inject_Z 0); apply inj_le; lia).
    assert (A := H (inject_Z m + (1#2)) ltac:(lra)). rewrite code_half in A. unfold loOk in A. cbn [fst snd] in A. destruct A as [_ A]. specialize (A ltac:(lia)).
    assert (B := H (inject_Z m) M0). rewrite code_int in B. unfold loOk in B. cbn [fst snd] in B.
    assert (L : (l <= m)%Z). { destruct (half_between m) as [_ X]. assert (inject_Z l < inject_Z (m + 1)) by (destruct ls; lra). apply inj_ltZ in H0. lia. }
    destruct ls.
    + exfalso. assert (X : (2 * m + 1 <= 2 * m)%Z) by (apply B; apply inj_le; auto). lia.
    + f_equal. destruct (Z.eq_dec l m); [auto|exfalso]. assert (X : (2 * m + 1 <= 2 * m)%Z) by (apply B; apply inj_lt; lia). lia.
Qed.

(** the guard [g] is exactly the box [lo, hi] of the clocks below N; [hi] is
    None when it is unbounded above *)
Definition capZ (hi : option (nat -> Z)) (x : nat) (c : Z) : Prop := match hi with None => True | Some h => (c <= h x)%Z end.
Definition sbox (N : nat) (g : guard) (lo : nat -> Z) (hi : option (nat -> Z)) : Prop :=
  smallConsts g /\ nonRedundant g /\ (forall k, In k g -> (cx k < N)%nat) /\
  forall x d, 0 <= d -> (upSat g x d <-> ((x < N)%nat -> capZ hi x (code d))) /\ (loSat g x d <-> ((x < N)%nat -> (lo x <= code d)%Z)).
Lemma sbox_sat N g lo hi v : sbox N g lo hi -> nonneg v ->
  (gsat g v <-> forall x, (x < N)%nat -> (lo x <= code (v x))%Z /\ capZ hi x (code (v x))).
Proof.
  intros (_ & _ & _ & H) Hv. rewrite gsat_upLo. split.
  - intros G x Hx. destruct (G x) as [A B]. destruct (H x (v x) (Hv x)) as [U L]. split; [apply L; auto|apply U; auto].
  - intros G x. destruct (H x (v x) (Hv x)) as [U L]. split; [apply U|apply L]; intro Hx; apply (G x Hx).
Qed.
Lemma sbox_row N g lo hi x : sbox N g lo hi -> (x < N)%nat -> (0 <= lo x)%Z -> (forall h, hi = Some h -> (0 <= h x)%Z) ->
  nth x (toBounds g) defB = (match hi with None => maxUB | Some h => ubZ (h x) end, lbZ (lo x)) /\ (hi <> None -> fst (nth x (toBounds g) defB) <> maxUB).
Proof.
  intros (Sm & Nr & Cx & H) Hx Hlo Hhi. assert (W := toBounds_wf g Sm x). destruct W as [W1 [W2 W3]].
  assert (L : snd (nth x (toBounds g) defB) = lbZ (lo x)).
  { apply lb_unique; auto. intros d Hd. destruct (toBounds_sep g x d Sm Hd) as [_ B]. destruct (H x d Hd) as [_ L]. rewrite B, L. split; auto. }
  assert (U : fst (nth x (toBounds g) defB) = match hi with None => maxUB | Some h => ubZ (h x) end /\ (hi <> None -> fst (nth x (toBounds g) defB) <> maxUB)).
  { destruct hi as [h|].
    - destruct (ub_unique (fst (nth x (toBounds g) defB)) (h x)) as [A B]; [apply Hhi; auto| |split; auto].
      intros d Hd. destruct (toBounds_sep g x d Sm Hd) as [B _]. destruct (H x d Hd) as [U _]. rewrite B, U. cbn [capZ]. split; auto.
    - split; [|congruence]. apply upper_maxUB; auto. intros (k & H1 & H2 & H3).
      set (d := inject_Z (Z.max 0 (cc k)) + 1).
      assert (Hd0 : inject_Z 0 <= inject_Z (Z.max 0 (cc k))) by (apply inj_le; lia).
      assert (Hd1 : inject_Z (cc k) <= inject_Z (Z.max 0 (cc k))) by (apply inj_le; lia).
      change (inject_Z 0) with 0 in Hd0. assert (Hd : 0 <= d) by (unfold d; lra).
      destruct (H x d Hd) as [U _]. assert (X : upSat g x d) by (apply U; intros _; exact I). specialize (X k H1 H2 H3).
      unfold holds, isUpper in *. destruct (codr k); try discriminate; unfold d in X; lra. }
  destruct U as [U1 U2]. split; [|exact U2]. destruct (nth x (toBounds g) defB); cbn [fst snd] in *. congruence.
Qed.
Lemma hull2_up l r x d : nonRedundant l -> nonRedundant r -> (upSat (unionHull2 l r) x d <-> upSat l x d \/ upSat r x d).
Proof.
  intros Nl Nr. unfold unionHull2.
  assert (Hne : [l; r] <> []) by discriminate. assert (C := hull_char [l; r] (x, true) Hne).
  assert (Hn : forall g, In g [l; r] -> nonRedundant g) by (intros g [<-|[<-|[]]]; auto).
  split.
  - intro H. destruct (hfind (hullGuards true [] [l; r]) (x, true)) as [b|] eqn:Hf.
    + destruct C as [_ (g & c & C1 & C2 & C3 & C4)].
      assert (Hin : In (hullConstraint ((x, true), b)) (unionHull [l; r])).
      { unfold unionHull. apply in_map. apply uniq_hfind; auto. apply hullGuards_uniq. constructor. }
      specialize (H _ Hin (hullConstraint_cx _ _) (hullConstraint_up _ _)). apply holds_key in H. rewrite hullConstraint_dbm, hullConstraint_key in H. cbn [snd] in H.
      assert (X : upSat g x d).
      { intros k Hk Ex Eu. assert (k = c) by (apply (nonRed_unique g); auto; unfold keyOf in *; congruence). subst k.
        apply holds_key. unfold keyOf; cbn [snd]. rewrite Eu, <- C4. exact H. }
      destruct C1 as [<-|[<-|[]]]; auto.
    + destruct C as (g & C1 & C2). assert (X : upSat g x d) by (intros k Hk Ex Eu; exfalso; apply (C2 k Hk); unfold keyOf; congruence).
      destruct C1 as [<-|[<-|[]]]; auto.
  - intros H k Hk Ex Eu. apply unionHull_In in Hk. destruct Hk as (k0 & b & -> & Hf). rewrite hullConstraint_cx in Ex. rewrite hullConstraint_up in Eu.
    destruct k0 as [x0 up0]; cbn [fst snd] in *. subst x0 up0. rewrite Hf in C. destruct C as [C _].
    apply holds_key. rewrite hullConstraint_dbm, hullConstraint_key. cbn [snd].
    assert (G : forall g, In g [l; r] -> upSat g x d -> bsat (toF b) (side true d)).
    { intros g Hg Hs. destruct (C g Hg) as [(c & Hc & Hk) C2]. apply (ble_sat_1 _ _ (C2 c Hc Hk)).
      assert (Hc' : holds c d) by (apply Hs; unfold keyOf in Hk; congruence). apply holds_key in Hc'. rewrite Hk in Hc'. exact Hc'. }
    destruct H as [H|H]; [apply (G l)|apply (G r)]; cbn; auto.
Qed.
Lemma hull2_lo l r x d : nonRedundant l -> nonRedundant r -> (loSat (unionHull2 l r) x d <-> loSat l x d \/ loSat r x d).
Proof.
  intros Nl Nr. unfold unionHull2.
  assert (Hne : [l; r] <> []) by discriminate. assert (C := hull_char [l; r] (x, false) Hne).
  assert (Hn : forall g, In g [l; r] -> nonRedundant g) by (intros g [<-|[<-|[]]]; auto).
  split.
  - intro H. destruct (hfind (hullGuards true [] [l; r]) (x, false)) as [b|] eqn:Hf.
    + destruct C as [_ (g & c & C1 & C2 & C3 & C4)].
      assert (Hin : In (hullConstraint ((x, false), b)) (unionHull [l; r])).
      { unfold unionHull. apply in_map. apply uniq_hfind; auto. apply hullGuards_uniq. constructor. }
      specialize (H _ Hin (hullConstraint_cx _ _) (hullConstraint_up _ _)). apply holds_key in H. rewrite hullConstraint_dbm, hullConstraint_key in H. cbn [snd] in H.
      assert (X : loSat g x d).
      { intros k Hk Ex Eu. assert (k = c) by (apply (nonRed_unique g); auto; unfold keyOf in *; congruence). subst k.
        apply holds_key. unfold keyOf; cbn [snd]. rewrite Eu, <- C4. exact H. }
      destruct C1 as [<-|[<-|[]]]; auto.
    + destruct C as (g & C1 & C2). assert (X : loSat g x d) by (intros k Hk Ex Eu; exfalso; apply (C2 k Hk); unfold keyOf; congruence).
      destruct C1 as [<-|[<-|[]]]; auto.
  - intros H k Hk Ex Eu. apply unionHull_In in Hk. destruct Hk as (k0 & b & -> & Hf). rewrite hullConstraint_cx in Ex. rewrite hullConstraint_up in Eu.
    destruct k0 as [x0 up0]; cbn [fst snd] in *. subst x0 up0. rewrite Hf in C. destruct C as [C _].
    apply holds_key. rewrite hullConstraint_dbm, hullConstraint_key. cbn [snd].
    assert (G : forall g, In g [l; r] -> loSat g x d -> bsat (toF b) (side false d)).
    { intros g Hg Hs. destruct (C g Hg) as [(c & Hc & Hk) C2]. apply (ble_sat_1 _ _ (C2 c Hc Hk)).
      assert (Hc' : holds c d) by (apply Hs; unfold keyOf in Hk; congruence). apply holds_key in Hc'. rewrite Hk in Hc'. exact Hc'. }
    destruct H as [H|H]; [apply (G l)|apply (G r)]; cbn; auto.
Qed.
Lemma hull2_cx (l r : guard) N : (forall k, In k l -> (cx k < N)%nat) -> (forall k, In k r -> (cx k < N)%nat) -> forall k, In k (unionHull2 l r) -> (cx k < N)%nat.
Proof.
  intros Hl Hr c Hc. unfold unionHull2 in Hc. apply unionHull_In in Hc. destruct Hc as (k & b & -> & Hf).
  assert (Hne : [l; r] <> []) by discriminate. assert (C := hull_char [l; r] k Hne). rewrite Hf in C. destruct C as [_ (g & c & C1 & C2 & C3 & ->)].
  rewrite hullConstraint_cx. subst k. cbn. destruct C1 as [<-|[<-|[]]]; auto.
Qed.
(** the hull of two boxes in order *)
Lemma hull2_sbox N l r lo1 h1 lo2 hi2 : sbox N l lo1 (Some h1) -> sbox N r lo2 hi2 ->
  (forall x, (x < N)%nat -> (lo1 x <= lo2 x)%Z) -> (forall x, (x < N)%nat -> forall c, (c <= h1 x)%Z -> capZ hi2 x c) ->
  sbox N (unionHull2 l r) lo1 hi2 /\ sbox N (unionHull2 r l) lo1 hi2.
Proof.
  intros (S1 & N1 & C1 & H1) (S2 & N2 & C2 & H2) Hlo Hhi. split.
  - split; [apply hull2_small; auto|]. split; [apply hull_nonRedundant|]. split; [apply hull2_cx; auto|].
    intros x d Hd. rewrite hull2_up, hull2_lo by auto. destruct (H1 x d Hd) as [-> ->], (H2 x d Hd) as [-> ->]. cbn [capZ]. split; split.
    + intros [A|A] Hx; auto.
    + intro A. right. exact A.
    + intros [A|A] Hx; [auto|]. specialize (Hlo x Hx). specialize (A Hx). lia.
    + auto.
  - split; [apply hull2_small; auto|]. split; [apply hull_nonRedundant|]. split; [apply hull2_cx; auto|].
    intros x d Hd. rewrite hull2_up, hull2_lo by auto. destruct (H1 x d Hd) as [-> ->], (H2 x d Hd) as [-> ->]. cbn [capZ]. split; split.
    + intros [A|A] Hx; auto.
    + intro A. left. exact A.
    + intros [A|A] Hx; [|auto]. specialize (Hlo x Hx). specialize (A Hx). lia.
    + auto.
Qed.
