(** The observation table: structural invariants. *)
From Coq Require Import QArith ZArith Bool List Arith Lia Permutation.
From Verif Require Import BoundsModel BoundsProofs ConstraintModel ZoneModel ZoneSpec ZoneProofs AutomatonModel TimedWordModel TimedWordSpec
  TimedConditionModel TimedConditionSpec ElementaryModel ElementarySpec ElementaryProofs LooseProofs
  RegionalModel RegionalSpec OracleModel SymbolicModel SymbolicSpec SymbolicProofs2 CexModel CexSpec RenamingModel RenamingSpec TableModel TableProofs ShapeProofs ShapeProofs2 TableProofs2.
Import ListNotations.

(** ** the languages asked about *)
Definition keyShape (k : elem) : Prop := exists x z, goodPre x /\ sufShape z /\ k = elConcat (fel x) (fel z).
Definition keysShape {St} (y : symOracle St) : Prop := forall k cs, In (k, cs) (smCache y) -> keyShape k.
(** all of them can be satisfied *)
Definition allSat {St} (y : symOracle St) : Prop := forall k cs, In (k, cs) (smCache y) -> nonemptyZ (ec k).
Lemma allSat_le {St} (y y' : symOracle St) : cacheLe y y' -> allSat y' -> allSat y.
Proof. intros [_ A] H k cs K. eapply H, A, K. Qed.
Lemma keys_usable {St} (y : symOracle St) : keysShape y -> allSat y -> keysUsable y.
Proof. intros K A k cs H. destruct (K k cs H) as [x [z [Gx [Sz ->]]]]. apply concat_usable; auto. exact (A _ _ H). Qed.
Lemma symQuery_keys {St} (o : mOracle St) y x y' cs k c : symQuery o y x = Some (y', cs) -> In (k, c) (smCache y') -> In (k, c) (smCache y) \/ k = x.
Proof.
  unfold symQuery. destruct (findEL (smCache y) x) as [cs0|]; [intros E H; injection E as <- <-; auto|].
  destruct (included o (smOracle y) (elEnumerate x)) as [[[s inc] all]|]; [|discriminate]. cbv zeta.
  match goal with |- context [match ?m with Some _ => _ | None => None end] => destruct m as [cs0|]; [|discriminate] end.
  intros E H. injection E as <- <-. destruct H as [H|H]; [injection H as <- _; auto|auto].
Qed.

(** ** the tree of the prefixes *)
Section Tree.
Context {St : Type}.
Notation tbl := (ot St).
Record tree (t : tbl) : Prop := {
  tr_lt : forall p, In p (otP t) -> (p < length (otPre t))%nat;
  tr_nodup : NoDup (otP t);
  tr_cont : forall p, In p (otP t) -> exists k, contAt t p = Some k /\ (k < length (otPre t))%nat /\ preAt t k = frSucc (preAt t p);
  tr_disc : forall p a, In p (otP t) -> In a (otAlpha t) -> exists k, discAt t p a = Some k /\ (k < length (otPre t))%nat /\ preAt t k = frSuccAct (preAt t p) a;
  tr_contP : forall p k, contAt t p = Some k -> In p (otP t) /\ (p < k)%nat;
  tr_inj : forall p q k, contAt t p = Some k -> contAt t q = Some k -> p = q;
  tr_parent : forall i, (0 < i)%nat -> (i < length (otPre t))%nat -> exists p, In p (otP t) /\ (p < i)%nat /\
    (preAt t i = frSucc (preAt t p) \/ exists a, In a (otAlpha t) /\ preAt t i = frSuccAct (preAt t p) a);
  tr_discP : forall p a k, discAt t p a = Some k -> In p (otP t) /\ In a (otAlpha t) /\ (p < k)%nat /\ (k < length (otPre t))%nat;
  tr_discInj : forall p q a b k, discAt t p a = Some k -> discAt t q b = Some k -> p = q /\ a = b;
  tr_sep : forall p q a k, contAt t p = Some k -> discAt t q a = Some k -> False;
  tr_kind : NoDup (otAlpha t) -> forall i, (0 < i)%nat -> (i < length (otPre t))%nat -> (exists p, contAt t p = Some i) \/ exists p a, discAt t p a = Some i }.
Lemma tree_asked (t t' : tbl) : asked t t' -> tree t -> tree t'.
Proof.
  intros [_ [Ea [Ep [_ [_ [EP [_ [Ec Ed]]]]]]]] H. destruct H as [A B C D E F G H1 H2 H3 H4].
  assert (PA : forall i, preAt t' i = preAt t i) by (intro; unfold preAt; rewrite Ep; auto). assert (CA : forall i, contAt t' i = contAt t i) by (intro; unfold contAt; rewrite Ec; auto).
  assert (DA : forall i a, discAt t' i a = discAt t i a) by (intros; unfold discAt; rewrite Ed; auto).
  constructor; rewrite ?EP, ?Ep, ?Ea.
  - auto.
  - auto.
  - intros p Hp. destruct (C p Hp) as [k K]. exists k. rewrite CA, !PA. auto.
  - intros p a Hp Ha. destruct (D p a Hp Ha) as [k K]. exists k. rewrite DA, !PA. auto.
  - intros p k. rewrite CA. auto.
  - intros p q k. rewrite !CA. eauto.
  - intros i Hi Hi2. destruct (G i Hi Hi2) as [p K]. exists p. setoid_rewrite PA. auto.
  - intros p a k. rewrite DA. auto.
  - intros p q a b k. rewrite !DA. eauto.
  - intros p q a k. rewrite CA, DA. eauto.
  - intros ND i Hi Hi2. destruct (H4 ND i Hi Hi2) as [[p K]|[p [a K]]]; [left; exists p; rewrite CA; auto|right; exists p, a; rewrite DA; auto].
Qed.
Lemma find_app {A} (g : A -> bool) l l' : find g (l ++ l') = match find g l with Some e => Some e | None => find g l' end.
Proof. induction l as [|e l IH]; [reflexivity|]. cbn [app find]. destruct (g e); auto. Qed.
Lemma combine_seq (l : list letter) : forall b a k, In (a, k) (combine l (seq b (length l))) -> (b <= k)%nat /\ (k < b + length l)%nat /\ nth (k - b) l 0%nat = a.
Proof.
  induction l as [|x l IH]; intros b a k H; [destruct H|]. cbn [length seq combine] in H. destruct H as [H|H].
  - injection H as -> ->. rewrite Nat.sub_diag. cbn. lia.
  - destruct (IH (S b) a k H) as [A [B C]]. cbn [length]. split; [lia|]. split; [lia|]. replace (k - b)%nat with (S (k - S b)) by lia. exact C.
Qed.
Lemma in_combine_seq (l : list letter) : forall b a, In a l -> exists k, In (a, k) (combine l (seq b (length l))).
Proof. induction l as [|x l IH]; intros b a H; [destruct H|]. cbn [length seq combine]. destruct H as [->|H]; [exists b; left; auto|]. destruct (IH (S b) a H) as [k K]. exists k. right; auto. Qed.
Lemma tree_addSuccessors (t : tbl) i : tree t -> (i < length (otPre t))%nat -> ~ In i (otP t) -> tree (addSuccessors t i).
Proof.
  intros [A B C D E F G Q1 Q2 Q3 Q4] Hi NP. set (x := preAt t i). set (base := length (otPre t)). set (n := length (otAlpha t)).
  assert (LP : length (otPre (addSuccessors t i)) = (base + n + 1)%nat) by (cbn; rewrite !app_length, map_length; cbn; unfold base, n; lia).
  assert (PO : forall k, (k < base)%nat -> preAt (addSuccessors t i) k = preAt t k) by (intros k Hk; unfold preAt; cbn; apply app_nth1; auto).
  assert (PD : forall k, (k < n)%nat -> preAt (addSuccessors t i) (base + k) = frSuccAct x (nth k (otAlpha t) 0%nat)).
  { intros k Hk. unfold preAt. cbn. rewrite app_nth2 by (unfold base; lia). replace (base + k - length (otPre t))%nat with k by (unfold base; lia).
    rewrite app_nth1 by (rewrite map_length; auto). rewrite nth_indep with (d' := frSuccAct x 0%nat) by (rewrite map_length; auto). apply map_nth. }
  assert (PC : preAt (addSuccessors t i) (base + n) = frSucc x).
  { unfold preAt. cbn. rewrite app_nth2 by (unfold base; lia). replace (base + n - length (otPre t))%nat with n by (unfold base; lia). rewrite app_nth2 by (rewrite map_length; unfold n; lia).
    rewrite map_length. replace (n - length (otAlpha t))%nat with 0%nat by (unfold n; lia). reflexivity. }
  assert (CA : forall p, contAt (addSuccessors t i) p = if (i =? p)%nat then Some (base + n)%nat else contAt t p).
  { intro p. unfold contAt, mapAt. cbn [addSuccessors otCont find fst]. destruct (i =? p)%nat; reflexivity. }
  assert (CL : forall p k, contAt t p = Some k -> (k < base)%nat).
  { intros p k H. destruct (E p k H) as [H1 _]. destruct (C p H1) as [k' [K1 [K2 _]]]. unfold base. congruence. }
  assert (DN : forall p a, p <> i -> discAt (addSuccessors t i) p a = discAt t p a).
  { intros p a N. unfold discAt. cbn [addSuccessors otDisc]. rewrite find_app. destruct (find _ (rev _)) as [[[q b] k]|] eqn:Fd; [|reflexivity].
    apply find_some in Fd. destruct Fd as [F1 F2]. apply in_rev, in_map_iff in F1. destruct F1 as [pr [F1 _]]. injection F1 as <- _ _. cbn [fst snd] in F2. apply andb_true_iff in F2. destruct F2 as [F2 _]. apply Nat.eqb_eq in F2. congruence. }
  assert (DI : forall a, In a (otAlpha t) -> exists k, discAt (addSuccessors t i) i a = Some (base + k)%nat /\ (k < n)%nat /\ nth k (otAlpha t) 0%nat = a).
  { intros a Ha. unfold discAt. cbn [addSuccessors otDisc]. rewrite find_app. destruct (find _ (rev _)) as [[[q b] k]|] eqn:Fd.
    - apply find_some in Fd. destruct Fd as [F1 F2]. apply in_rev, in_map_iff in F1. destruct F1 as [[b' k'] [F1 F3]]. cbn [fst snd] in *. injection F1 as <- <- <-. apply andb_true_iff in F2. destruct F2 as [_ F2]. apply Nat.eqb_eq in F2. subst b'.
      apply combine_seq in F3. destruct F3 as [_ [F3 F4]]. rewrite Nat.sub_0_r in F4. exists k'. cbn [option_map snd]. auto.
    - exfalso. destruct (in_combine_seq (otAlpha t) 0 a Ha) as [k K]. assert (X := find_none _ _ Fd ((i, a), (base + k)%nat)). cbn [fst snd] in X. rewrite !Nat.eqb_refl in X. cbn [andb] in X. assert (Y : In ((i, a), (base + k)%nat) (rev (map (fun p => ((i, fst p), (length (otPre t) + snd p)%nat)) (combine (otAlpha t) (seq 0 (length (otAlpha t))))))) by (apply -> in_rev; apply in_map_iff; exists (a, k); split; [reflexivity|exact K]). specialize (X Y). discriminate. }
  assert (DJ : forall a k, discAt (addSuccessors t i) i a = Some k -> exists k', k = (base + k')%nat /\ (k' < n)%nat /\ nth k' (otAlpha t) 0%nat = a).
  { intros a k K. unfold discAt in K. cbn [addSuccessors otDisc] in K. rewrite find_app in K. destruct (find _ (rev _)) as [[[q b] k1]|] eqn:Fd.
    - apply find_some in Fd. destruct Fd as [F1 F2]. apply in_rev, in_map_iff in F1. destruct F1 as [[b' k'] [F1 F3]]. cbn [fst snd] in *. injection F1 as <- <- <-. apply andb_true_iff in F2. destruct F2 as [_ F2]. apply Nat.eqb_eq in F2. subst b'.
      apply combine_seq in F3. destruct F3 as [_ [F3 F4]]. rewrite Nat.sub_0_r in F4. exists k'. cbn [option_map snd] in K. injection K as <-. auto.
    - exfalso. apply NP. exact (proj1 (Q1 i a k K)). }
  constructor; rewrite ?LP.
  - intros p Hp. cbn in Hp. apply in_app_or in Hp. destruct Hp as [Hp|[<-|[]]]; [apply A in Hp|]; unfold base; lia.
  - cbn. apply NoDup_rev in B. rewrite <- (rev_involutive (otP t ++ [i])). apply NoDup_rev. rewrite rev_app_distr. cbn. constructor; [|exact B]. intro K. apply NP. apply in_rev in K. exact K.
  - intros p Hp. cbn in Hp. rewrite CA. destruct (Nat.eqb_spec i p) as [<-|N].
    + exists (base + n)%nat. split; [auto|]. split; [lia|]. rewrite PC, PO by auto. reflexivity.
    + apply in_app_or in Hp. destruct Hp as [Hp|[Hp|[]]]; [|congruence]. destruct (C p Hp) as [k [K1 [K2 K3]]]. exists k. split; [auto|]. split; [unfold base; lia|]. rewrite (PO k) by exact K2. rewrite (PO p) by (apply A; exact Hp). exact K3.
  - intros p a Hp Ha. cbn in Hp, Ha. destruct (Nat.eq_dec p i) as [->|N].
    + destruct (DI a Ha) as [k [K1 [K2 K3]]]. exists (base + k)%nat. split; [auto|]. split; [lia|]. rewrite PD, PO by auto. rewrite K3. reflexivity.
    + apply in_app_or in Hp. destruct Hp as [Hp|[Hp|[]]]; [|congruence]. destruct (D p a Hp Ha) as [k [K1 [K2 K3]]]. exists k. rewrite DN by auto. split; [auto|]. split; [unfold base; lia|]. rewrite (PO k) by exact K2. rewrite (PO p) by (apply A; exact Hp). exact K3.
  - intros p k. rewrite CA. cbn [addSuccessors otP]. destruct (Nat.eqb_spec i p) as [<-|N]; intro H.
    + injection H as <-. split; [apply in_or_app; right; left; auto|unfold base; lia].
    + destruct (E p k H). split; [apply in_or_app; auto|auto].
  - intros p q k. rewrite !CA. destruct (Nat.eqb_spec i p) as [<-|N1], (Nat.eqb_spec i q) as [<-|N2]; intros H1 H2; auto.
    + injection H1 as <-. apply CL in H2. lia.
    + injection H2 as <-. apply CL in H1. lia.
    + eauto.
  - intros j Hj Hj2. destruct (le_lt_dec base j) as [Hb|Hb].
    + exists i. split; [cbn; apply in_or_app; right; left; auto|]. split; [unfold base in *; lia|]. rewrite (PO i) by auto. fold x. destruct (Nat.eq_dec j (base + n)) as [->|N]; [left; auto|]. right.
      exists (nth (j - base) (otAlpha t) 0%nat). split; [apply nth_In; change (j - base < n)%nat; lia|]. replace j with (base + (j - base))%nat at 1 by lia. apply PD. lia.
    + destruct (G j Hj Hb) as [p [P1 [P2 P3]]]. exists p. split; [cbn; apply in_or_app; auto|]. split; [auto|]. rewrite !PO by lia. exact P3.
  - intros p a k K. cbn [addSuccessors otP otAlpha]. destruct (Nat.eq_dec p i) as [->|N].
    + destruct (DJ a k K) as [k' [-> [K2 K3]]]. split; [apply in_or_app; right; left; auto|]. split; [rewrite <- K3; apply nth_In; exact K2|]. unfold base; lia.
    + rewrite DN in K by auto. destruct (Q1 _ _ _ K) as [K1 [K2 [K3 K4]]]. split; [apply in_or_app; auto|]. split; [auto|]. unfold base; lia.
  - intros p q a b k K K'. destruct (Nat.eq_dec p i) as [->|N1], (Nat.eq_dec q i) as [->|N2].
    + destruct (DJ a k K) as [k1 [-> [_ X1]]], (DJ b _ K') as [k2 [X2 [_ X3]]]. split; [auto|]. assert (k1 = k2) by lia. subst. reflexivity.
    + destruct (DJ a k K) as [k1 [-> _]]. rewrite DN in K' by auto. apply Q1 in K'. unfold base in K'. lia.
    + destruct (DJ b k K') as [k1 [-> _]]. rewrite DN in K by auto. apply Q1 in K. unfold base in K. lia.
    + rewrite DN in K, K' by auto. eauto.
  - intros p q a k K K'. rewrite CA in K. destruct (Nat.eqb_spec i p) as [<-|N1], (Nat.eq_dec q i) as [->|N2].
    + injection K as <-. destruct (DJ a _ K') as [k1 [X1 [X2 _]]]. lia.
    + injection K as <-. rewrite DN in K' by auto. apply Q1 in K'. unfold base in K'. lia.
    + apply CL in K. destruct (DJ a _ K') as [k1 [X1 [X2 _]]]. lia.
    + rewrite DN in K' by auto. eauto.
  - cbn [addSuccessors otAlpha]. intros ND j Hj Hj2. destruct (le_lt_dec base j) as [Hb|Hb].
    + destruct (Nat.eq_dec j (base + n)) as [->|N]; [left; exists i; rewrite CA, Nat.eqb_refl; auto|]. right. exists i, (nth (j - base) (otAlpha t) 0%nat).
      assert (Lj : (j - base < length (otAlpha t))%nat) by (fold n; lia). destruct (DI _ (nth_In _ 0%nat Lj)) as [k [K1 [K2 K3]]]. refine (eq_trans K1 _). f_equal.
      rewrite (NoDup_nth (otAlpha t) 0%nat) in ND. assert (k = (j - base)%nat) by (apply ND; auto). lia.
    + destruct (Q4 ND j Hj Hb) as [[p K]|[p [a K]]].
      * left. exists p. rewrite CA. destruct (Nat.eqb_spec i p) as [<-|]; [|auto]. destruct (E _ _ K). contradiction.
      * right. exists p, a. rewrite DN; [auto|]. intros ->. destruct (Q1 _ _ _ K). contradiction.
Qed.
End Tree.

(** ** the invariants *)
Section Str.
Context {St : Type} (o : mOracle St) (f : tword -> bool) (Inv : St -> Prop) (ordP : ot St -> list nat) (ordR : ot St -> list nat) (place : ot St -> nat -> nat -> nat).
Notation tbl := (ot St).
Hypothesis HO : forall s x, Inv s -> properTW x -> exists s', o s x = Some (s', f x) /\ Inv s'.
Hypothesis RI : regionInvariant properTW f.
Hypothesis HordP : forall t, Permutation (ordP t) (otP t).

Definition memOK (y : symOracle St) : Prop := cacheOK f Inv y /\ keysShape y.
Lemma memOK_query y x y' cs : memOK y -> keyShape x -> symQuery o y x = Some (y', cs) -> memOK y'.
Proof using HO RI.
  intros [C K] X E. split; [eapply cacheOK_query; eauto|]. intros k c H. destruct (symQuery_keys o y x y' cs k c E H) as [H1| ->]; [eapply K; eauto|auto].
Qed.
Lemma fillCells_mem x : goodPre x -> forall sufs y y' css ccs, Forall sufShape sufs -> memOK y -> fillCells o y x sufs = Ok (y', css, ccs) -> memOK y'.
Proof using HO RI.
  intro G. induction sufs as [|s sufs IH]; intros y y' css ccs F M H; cbn [fillCells] in H; [injection H as <- _ _; auto|]. cbv zeta in H.
  destruct (symQuery o y (elConcat (fel x) (fel s))) as [[y1 cs]|] eqn:E; [|discriminate]. bind_inv H. destruct a as [[y2 css0] ccs0]. injection H as <- _ _. inversion F; subst.
  eapply IH; [eauto| |exact E0]. eapply memOK_query; [exact M| |exact E]. exists x, s. auto.
Qed.
Lemma Forall_skipn' {A} (P : A -> Prop) n l : Forall P l -> Forall P (skipn n l).
Proof. revert l; induction n as [|n IH]; intros [|a l] H; cbn; auto. inversion H; auto. Qed.
Lemma fillRows_mem sufs : Forall sufShape sufs -> forall pre y tab con y' tab' con', Forall goodPre pre -> memOK y -> fillRows o y pre tab con sufs = Ok (y', tab', con') -> memOK y'.
Proof using HO RI.
  intro FS. induction pre as [|x pre IH]; intros y tab con y' tab' con' F M H; cbn [fillRows] in H; [injection H as <- _ _; auto|]. cbv zeta in H.
  bind_inv H. destruct a as [[y1 css] ccs]. bind_inv H. destruct a as [[y2 tb] cn]. injection H as <- _ _. inversion F; subst.
  eapply IH; [eauto| |exact E0]. eapply fillCells_mem; [| | |exact E]; eauto. apply Forall_skipn'; auto.
Qed.

Record str (t : tbl) : Prop := {
  s_alpha : ~ In UNOBSERVABLE (otAlpha t);
  s_pre : Forall goodPre (otPre t);
  s_pre0 : exists l, otPre t = frDefault :: l;
  s_suf : Forall sufShape (otSuf t);
  s_suf0 : exists l, otSuf t = brDefault :: l;
  s_mem : memOK (otMem t);
  s_cells : cells (otMem t) (otPre t) (otSuf t) (otTab t) (otCon t);
  s_tree : tree t }.
(** the table is completely filled *)
Definition filled (t : tbl) : Prop := full (otPre t) (otSuf t) (otTab t).
Lemma str_asked t t' : asked t t' -> memOK (otMem t') -> str t -> str t'.
Proof.
  intros K M H. assert (T := tree_asked t t' K (s_tree t H)). destruct K as [L [Ea [Ep [Es [Ec [EP [Et _]]]]]]]. destruct H as [A B C D E F G _].
  constructor; rewrite ?Ea, ?Ep, ?Es, ?Ec, ?Et; auto. eapply cells_le; eauto.
Qed.
Lemma str_same t t' : same t t' -> str t -> str t'.
Proof. intros K H. eapply str_asked; [apply same_asked; exact K| |exact H]. destruct K as [-> _]. apply s_mem; auto. Qed.
Lemma filled_asked t t' : asked t t' -> filled t -> filled t'.
Proof. intros [_ [_ [Ep [Es [_ [_ [Et _]]]]]]] H. unfold filled. rewrite Ep, Es, Et. exact H. Qed.
Lemma filled_same t t' : same t t' -> filled t -> filled t'.
Proof. intro. apply filled_asked, same_asked; auto. Qed.
Lemma str_refresh t t' : str t -> refreshTable o t = Ok t' -> str t' /\ filled t'.
Proof using HO RI.
  intros H E. unfold refreshTable in E. bind_inv E. destruct a as [[y tb] cn]. injection E as <-. destruct H as [A B C D E F G H].
  destruct (fillRows_spec o _ _ _ _ _ _ _ _ E0 G) as [L [C2 [FU _]]]. split; [|exact FU]. constructor; cbn [withTab otAlpha otPre otSuf otMem otTab otCon]; auto.
  - eapply fillRows_mem; [| | |exact E0]; auto.
  - destruct H as [h1 h2 h3 h4 h5 h6 h7]. constructor; auto.
Qed.
(** on a filled table filling changes nothing but the oracle *)
Lemma preAt_good t i : str t -> goodPre (preAt t i).
Proof.
  intro H. unfold preAt. destruct (le_lt_dec (length (otPre t)) i) as [K|K]; [rewrite nth_overflow by auto; apply goodPre_default|].
  assert (F := s_pre t H). rewrite Forall_forall in F. apply F. apply nth_In. auto.
Qed.
Lemma str_addSuccessors t i : str t -> (i < length (otPre t))%nat -> ~ In i (otP t) -> str (addSuccessors t i).
Proof.
  intros H Hi NP. assert (T := tree_addSuccessors t i (s_tree t H) Hi NP). assert (G := preAt_good t i H). destruct H as [A B C D E F K _].
  constructor; cbn [addSuccessors otAlpha otPre otSuf otMem otTab otCon]; auto.
  - apply Forall_app. split; [auto|]. apply Forall_app. split; [|constructor; [apply goodPre_succ; auto|constructor]].
    apply Forall_forall. intros x Hx. apply in_map_iff in Hx. destruct Hx as [a [<- Ha]]. apply goodPre_act; auto. intros ->. contradiction.
  - destruct C as [l C]. rewrite C. eexists. reflexivity.
  - rewrite <- (app_nil_r (otSuf t)) at 1. apply cells_grow. exact K.
Qed.
Lemma contAt_new (t : tbl) i : contAt (addSuccessors t i) i = Some (length (otPre t) + length (otAlpha t))%nat.
Proof. unfold contAt, mapAt. cbn [addSuccessors otCont find fst]. rewrite Nat.eqb_refl. reflexivity. Qed.
Lemma refresh_rest t t' : refreshTable o t = Ok t' -> otAlpha t' = otAlpha t /\ otPre t' = otPre t /\ otSuf t' = otSuf t /\ otP t' = otP t /\ otRel t' = otRel t /\
  otCont t' = otCont t /\ otDisc t' = otDisc t /\ otDist t' = otDist t /\ otCol t' = otCol t.
Proof. unfold refreshTable. intro E. bind_inv E. destruct a as [[y tb] cn]. injection E as <-. cbn. auto 10. Qed.
Lemma addSuccessors_len (t : tbl) i : length (otPre (addSuccessors t i)) = (length (otPre t) + length (otAlpha t) + 1)%nat.
Proof. cbn. rewrite !app_length, map_length. cbn. lia. Qed.
(** moveToP: the row and possibly fresh rows are added to P *)
Lemma moveToP_str : forall fuel t i t', str t -> (i < length (otPre t))%nat -> ~ In i (otP t) -> moveToP o place fuel t i = Ok t' ->
  str t' /\ filled t' /\ In i (otP t') /\ otSuf t' = otSuf t /\ forall j, (j < length (otPre t))%nat -> In j (otP t') -> j = i \/ In j (otP t).
Proof using HO RI.
  induction fuel as [|fuel IH]; intros t i t' H Hi NP E; cbn [moveToP] in E; [discriminate|]. rewrite (proj2 (Nat.ltb_lt _ _) Hi) in E. bind_inv E.
  assert (H1 := str_addSuccessors t i H Hi NP). destruct (str_refresh _ _ H1 E0) as [H2 F2]. destruct (refresh_rest _ _ E0) as [_ [Rp [Rs [RP [_ [Rc _]]]]]].
  assert (CN : contAt a i = Some (length (otPre t) + length (otAlpha t))%nat) by (unfold contAt; rewrite Rc; apply contAt_new). rewrite CN in E.
  destruct (equivMemo place a _ i) as [t2 r] eqn:E2. apply equivMemo_same in E2. assert (H3 := str_same _ _ E2 H2). assert (F3 := filled_same _ _ E2 F2).
  destruct E2 as [_ [_ [Ep [Es [_ [EP _]]]]]]. assert (P3 : otP t2 = otP t ++ [i]) by (rewrite EP, RP; reflexivity).
  assert (L3 : length (otPre t2) = (length (otPre t) + length (otAlpha t) + 1)%nat) by (rewrite Ep, Rp; apply addSuccessors_len).
  destruct r as [r|].
  - injection E as <-. split; [auto|]. split; [auto|]. split; [rewrite P3; apply in_or_app; right; left; auto|]. split; [rewrite Es, Rs; reflexivity|].
    intros j Hj Hp. rewrite P3 in Hp. apply in_app_or in Hp. destruct Hp as [Hp|[Hp|[]]]; auto.
  - destruct (IH t2 (length (otPre t) + length (otAlpha t))%nat t') as [A [B [C [C2 D]]]]; [exact H3|lia| |exact E|].
    { rewrite P3. intro K. apply in_app_or in K. destruct K as [K|[K|[]]]; [apply (tr_lt t (s_tree t H)) in K|]; lia. }
    split; [auto|]. split; [auto|]. split; [|split; [rewrite C2, Es, Rs; reflexivity|]].
    + apply moveToP_le in E. destruct E as [_ [_ [_ [_ [l ->]]]]]. rewrite P3. apply in_or_app. left. apply in_or_app. right. left. auto.
    + intros j Hj Hp. destruct (D j) as [->|K]; [lia|auto|lia|]. rewrite P3 in K. apply in_app_or in K. destruct K as [K|[K|[]]]; auto.
Qed.
Lemma newTable_str fuel alpha y t : ~ In UNOBSERVABLE alpha -> memOK y -> newTable o place fuel alpha y = Ok t -> str t /\ filled t /\ In 0%nat (otP t).
Proof using HO RI.
  intros NA M E. unfold newTable in E. bind_inv E. set (t0 := mkOT y alpha [frDefault] [brDefault] [] [] [] [] [] [] [] []) in *.
  assert (H0 : str t0).
  { constructor; cbn; auto.
    - constructor; [apply goodPre_default|constructor].
    - eexists; reflexivity.
    - constructor; [apply sufShape_default|constructor].
    - eexists; reflexivity.
    - split; [auto|]. split; [cbn; lia|]. cbn. lia.
    - constructor; cbn; try solve [intros ? []|intros ? ? []|discriminate|lia|constructor]. }
  destruct (moveToP_str fuel t0 0 a H0) as [A [B [C _]]]; [cbn; lia|intros []|exact E0|]. destruct (str_refresh _ _ A E) as [A2 B2]. split; [auto|]. split; [auto|].
  destruct (refresh_rest _ _ E) as [_ [_ [_ [-> _]]]]. exact C.
Qed.
Lemma ordP_in t p : In p (ordP t) <-> In p (otP t).
Proof using HordP. split; apply Permutation_in; [|apply Permutation_sym]; apply HordP. Qed.
Lemma closeLoop_str fuel : forall is t t' b, (forall i, In i is -> (i < length (otPre t))%nat) -> str t -> filled t -> closeLoop o ordP place fuel t is = Ok (t', b) ->
  str t' /\ filled t' /\ otSuf t' = otSuf t /\ if b then same t t' else exists i, In i is /\ ~ In i (otP t) /\ In i (otP t').
Proof using HO RI.
  induction is as [|i is IH]; intros t t' b L H F E; cbn [closeLoop] in E; [injection E as <- <-; split; [auto|]; split; [auto|]; split; [auto|]; apply same_refl|].
  assert (NEXT : forall t1 t' b, same t t1 -> closeLoop o ordP place fuel t1 is = Ok (t', b) -> str t' /\ filled t' /\ otSuf t' = otSuf t /\ if b then same t t' else exists k, In k (i :: is) /\ ~ In k (otP t) /\ In k (otP t')).
  { intros t1 u c S1 E1. assert (S1' := S1). destruct S1 as [_ [_ [Ep [Es [_ [EP _]]]]]]. destruct (IH t1 u c) as [A [B [C D]]]; [intros k Hk; rewrite Ep; apply L; right; auto|eapply str_same; eauto|eapply filled_same; eauto|exact E1|].
    split; [auto|]. split; [auto|]. split; [congruence|]. destruct c; [eapply same_trans; eauto|]. destruct D as [k [D1 [D2 D3]]]. exists k. split; [right; auto|]. rewrite <- EP. auto. }
  destruct (inP t i) eqn:IP; [apply (NEXT t); [apply same_refl|exact E]|]. destruct (confirmRel t i) as [t1 b1] eqn:E1. apply confirmRel_same in E1. destruct b1; [eapply NEXT; eauto|]. bind_inv E. destruct a as [t2 b2].
  apply jumpSame_same in E0. assert (S2 := same_trans _ _ _ E1 E0). destruct b2; [eapply NEXT; eauto|]. destruct (jumpAny place t2 i (ordP t2)) as [t3 b3] eqn:E3. apply jumpAny_same in E3.
  assert (S3 := same_trans _ _ _ S2 E3). destruct b3; [eapply NEXT; eauto|]. bind_inv E. bind_inv E. injection E as <- <-. assert (S3' := S3). destruct S3 as [_ [_ [Ep [Es [_ [EP _]]]]]].
  assert (NP : ~ In i (otP t)) by (intro K; apply inP_iff in K; congruence).
  destruct (moveToP_str fuel t3 i a) as [A [B [C [D _]]]]; [eapply str_same; eauto|rewrite Ep; apply L; left; auto|rewrite EP; exact NP|exact E2|]. destruct (str_refresh _ _ A E4) as [A2 B2].
  destruct (refresh_rest _ _ E4) as [_ [_ [Rs [RP _]]]]. split; [auto|]. split; [auto|]. split; [congruence|]. exists i. split; [left; auto|]. split; [auto|]. rewrite RP. exact C.
Qed.
Lemma close_str fuel t t' b : str t -> filled t -> close o ordP place fuel t = Ok (t', b) ->
  str t' /\ filled t' /\ otSuf t' = otSuf t /\ if b then same t t' else exists i, (i < length (otPre t))%nat /\ ~ In i (otP t) /\ In i (otP t').
Proof using HO RI.
  intros H F E. unfold close in E. apply closeLoop_str in E; [|intros i Hi; apply in_seq in Hi; lia|auto|auto]. destruct E as [A [B [C D]]]. split; [auto|]. split; [auto|]. split; [auto|].
  destruct b; [auto|]. destruct D as [i [D1 D2]]. apply in_seq in D1. exists i. split; [lia|auto].
Qed.
Lemma preAt_key t i s : str t -> sufShape s -> keyShape (elConcat (fel (preAt t i)) (fel s)).
Proof. intros H S0. exists (preAt t i), s. split; [apply preAt_good; auto|auto]. Qed.
Lemma extRow_str t i s t' row con : str t -> sufShape s -> extRow o t i s = Ok (t', row, con) -> str t'.
Proof using HO RI.
  intros H S0 E. assert (A := extRow_asked o _ _ _ _ _ _ E). eapply str_asked; [exact A| |exact H]. unfold extRow in E. cbv zeta in E.
  destruct (symQuery o (otMem t) _) as [[y cs]|] eqn:Q; [|discriminate]. injection E as <- _ _. cbn. eapply memOK_query; [apply (s_mem t H)|apply preAt_key; eauto|exact Q].
Qed.
Lemma equivNew_str t i j s t' b : str t -> sufShape s -> equivNew o t i j s = Ok (t', b) -> str t'.
Proof using HO RI.
  intros H S0. assert (FD : forall t t' b, str t -> equivNewFind o t i j s = Ok (t', b) -> str t').
  { clear t t' b H. intros t t' b H E. unfold equivNewFind in E. bind_inv E. destruct a as [[t1 lr] lc]. bind_inv E. destruct a as [[t2 rr] rc]. injection E as <- _.
    apply extRow_str in E0; auto. apply extRow_str in E1; auto. eapply str_same; [apply same_col|auto]. }
  unfold equivNew. cbv zeta.
  assert (G : forall t' b, match mapAt (relAt t i) j with
    | Some r => do (t1, b) <- equivNewWith o t i j s r; if (b : bool) then Ok (colPut t1 (i, j, s) true, true) else equivNewFind o t1 i j s
    | None => equivNewFind o t i j s end = Ok (t', b) -> str t').
  { clear t' b. intros t' b E. destruct (mapAt (relAt t i) j); [|eapply FD; eauto]. bind_inv E. destruct a as [t1 b1]. unfold equivNewWith in E0. bind_inv E0. destruct a as [[t1' lr] lc]. bind_inv E0. destruct a as [[t2 rr] rc]. injection E0 as <- E0.
    apply extRow_str in E1; auto. apply extRow_str in E2; auto. destruct b1; [injection E as <- _; eapply str_same; [apply same_col|auto]|]. eapply FD; eauto. }
  destruct (colAt t (i, j, s)) as [[n c]|]; [|apply G]. destruct (length (otSuf t) =? n)%nat; [|apply G]. intro E. injection E as <- _. exact H.
Qed.
Lemma findBreaking_str i j p : (forall s, sufShape s -> sufShape (p s)) -> forall l t t' r, Forall sufShape l -> str t -> findBreaking o t i j p l = Ok (t', r) ->
  str t' /\ match r with Some s => sufShape s /\ In s (map p l) | None => True end.
Proof using HO RI.
  intro PS. induction l as [|s l IH]; intros t t' r F H E; cbn [findBreaking] in E; [injection E as <- <-; auto|]. bind_inv E. destruct a as [t1 b]. inversion F; subst.
  apply equivNew_str in E0; auto. destruct b; [|injection E as <- <-; split; [auto|split; [auto|left; auto]]]. destruct (IH t1 t' r) as [A B]; auto. split; [auto|]. destruct r; [|auto]. destruct B. split; [auto|right; auto].
Qed.
Lemma addSuffix_str t s t' : str t -> sufShape s -> addSuffix o t s = Ok t' -> str t' /\ filled t' /\ otSuf t' = otSuf t ++ [s] /\ otPre t' = otPre t /\ otP t' = otP t.
Proof using HO RI.
  intros H S0 E. unfold addSuffix in E. assert (H1 : str (withSuf t (otSuf t ++ [s]))).
  { destruct H as [A B C D E1 F G [h1 h2 h3 h4 h5 h6 h7]]. constructor; cbn; auto.
    - apply Forall_app. split; [auto|constructor; auto].
    - destruct E1 as [l ->]. eexists; reflexivity.
    - rewrite <- (app_nil_r (otPre t)). apply cells_grow; auto.
    - constructor; auto. }
  destruct (str_refresh _ _ H1 E) as [A B]. destruct (refresh_rest _ _ E) as [_ [Rp [Rs [RP _]]]]. split; [auto|]. split; [auto|]. split; [rewrite Rs; reflexivity|]. split; [rewrite Rp|rewrite RP]; reflexivity.
Qed.
Lemma discreteConsistent_str i j : forall l t t' b, (forall a, In a l -> a <> UNOBSERVABLE) -> str t -> filled t -> discreteConsistent o place t i j l = Ok (t', b) ->
  str t' /\ filled t' /\ otPre t' = otPre t /\ otP t' = otP t /\ if b then otSuf t' = otSuf t else exists s, otSuf t' = otSuf t ++ [s].
Proof using HO RI.
  induction l as [|a l IH]; intros t t' b NA H F E; cbn [discreteConsistent] in E; [injection E as <- <-; auto|]. destruct (discAt t i a) as [k|]; [|discriminate]. destruct (discAt t j a) as [m|]; [|discriminate].
  destruct (equivMemo place t k m) as [t1 r] eqn:E1. apply equivMemo_same in E1. assert (H1 := str_same _ _ E1 H). assert (F1 := filled_same _ _ E1 F). destruct E1 as [_ [_ [Ep [Es [_ [EP _]]]]]].
  destruct r as [r|].
  - destruct (IH t1 t' b) as [A [B [C [D G]]]]; [intros c Hc; apply NA; right; auto|auto|auto|exact E|]. split; [auto|]. split; [auto|]. split; [congruence|]. split; [congruence|]. rewrite <- Es. exact G.
  - bind_inv E. injection E as <- <-. unfold resolveDiscrete in E0. bind_inv E0. destruct a1 as [t2 r2]. assert (AK := findBreaking_asked _ _ _ _ _ _ _ _ E).
    apply findBreaking_str in E; [|intros s0 Hs; apply sufShape_act; [apply NA; left; auto|auto]|apply (s_suf t1 H1)|auto]. destruct E as [A B]. destruct r2 as [s|]; [|discriminate]. destruct B as [B1 B2].
    destruct (addSuffix_str t2 s a0 A B1 E0) as [C [D [G [K L]]]]. destruct AK as [_ [_ [Ap [As [_ [AP _]]]]]]. split; [auto|]. split; [auto|]. split; [congruence|]. split; [congruence|]. exists s. congruence.
Qed.
Lemma pairConsistent_str t i j t' b : str t -> filled t -> pairConsistent o place t i j = Ok (t', b) ->
  str t' /\ filled t' /\ otPre t' = otPre t /\ otP t' = otP t /\ if b then otSuf t' = otSuf t else exists s, otSuf t' = otSuf t ++ [s].
Proof using HO RI.
  intros H F E. unfold pairConsistent in E. destruct (equivMemo place t i j) as [t1 r] eqn:E1. apply equivMemo_same in E1. assert (H1 := str_same _ _ E1 H). assert (F1 := filled_same _ _ E1 F). destruct E1 as [_ [_ [Ep [Es [_ [EP _]]]]]].
  destruct r as [r|]; [|injection E as <- <-; auto]. bind_inv E. destruct a as [t2 b2]. apply discreteConsistent_str in E0; [|intros a Ha ->; exact (s_alpha t1 H1 Ha)|auto|auto]. destruct E0 as [A [B [C [D G]]]].
  destruct b2; cbn [negb] in E; [|injection E as <- <-; split; [auto|]; split; [auto|]; split; [congruence|]; split; [congruence|]; rewrite <- Es; exact G].
  destruct (contAt t2 i) as [k|]; [|discriminate]. destruct (contAt t2 j) as [m|]; [|discriminate]. destruct (equivMemo place t2 k m) as [t3 r3] eqn:E3. apply equivMemo_same in E3. assert (H3 := str_same _ _ E3 A). assert (F3 := filled_same _ _ E3 B). destruct E3 as [_ [_ [Ep3 [Es3 [_ [EP3 _]]]]]].
  destruct r3 as [r3|]; [injection E as <- <-; split; [auto|]; split; [auto|]; split; [congruence|]; split; congruence|]. bind_inv E. destruct a as [t4 b4]. injection E as <- <-. unfold resolveContinuous in E0. bind_inv E0. destruct a as [t5 r5].
  assert (AK := findBreaking_asked _ _ _ _ _ _ _ _ E). apply findBreaking_str in E; [|apply sufShape_pred|apply (s_suf t3 H3)|auto]. destruct E as [A5 B5]. assert (F5 := filled_asked _ _ AK F3). destruct AK as [_ [_ [Ap [As [_ [AP _]]]]]].
  destruct r5 as [s|]; [|injection E0 as <- <-; cbn [negb]; split; [auto|]; split; [auto|]; split; [congruence|]; split; congruence]. bind_inv E0. injection E0 as <- <-. destruct B5 as [B5 B6].
  destruct (addSuffix_str t5 s a A5 B5 E) as [X1 [X2 [X3 [X4 X5]]]]. cbn [negb]. split; [auto|]. split; [auto|]. split; [congruence|]. split; [congruence|]. exists s. congruence.
Qed.
Lemma consistentLoop_str : forall ps t t' b, str t -> filled t -> consistentLoop o place t ps = Ok (t', b) ->
  str t' /\ filled t' /\ otPre t' = otPre t /\ otP t' = otP t /\ if b then otSuf t' = otSuf t else exists s, otSuf t' = otSuf t ++ [s].
Proof using HO RI.
  induction ps as [|[i j] ps IH]; intros t t' b H F E; cbn [consistentLoop] in E; [injection E as <- <-; auto|]. destruct (i <=? j)%nat; [apply IH; auto|]. bind_inv E. destruct a as [t1 b1].
  apply pairConsistent_str in E0; auto. destruct E0 as [A [B [C [D G]]]]. destruct b1; [|injection E as <- <-; auto 6]. apply IH in E; auto. destruct E as [A2 [B2 [C2 [D2 G2]]]].
  split; [auto|]. split; [auto|]. split; [congruence|]. split; [congruence|]. rewrite <- G. exact G2.
Qed.
(** distinct rows not in P *)
Lemma moveAll_str fuel : forall l t t', NoDup l -> (forall i, In i l -> (i < length (otPre t))%nat /\ ~ In i (otP t)) -> str t -> filled t -> moveAll o place fuel t l = Ok t' ->
  str t' /\ filled t' /\ otSuf t' = otSuf t /\ (forall i, In i l -> In i (otP t')) /\ forall j, (j < length (otPre t))%nat -> In j (otP t') -> In j l \/ In j (otP t).
Proof using HO RI.
  induction l as [|i l IH]; intros t t' ND L H F E; cbn [moveAll] in E; [injection E as <-; split; [auto|]; split; [auto|]; split; [auto|]; split; [intros ? []|auto]|]. bind_inv E. inversion ND; subst.
  assert (Hi := L i (or_introl eq_refl)). destruct (moveToP_str fuel t i a H (proj1 Hi) (proj2 Hi) E0) as [A [B [C [C2 D]]]]. assert (TL := moveToP_le _ _ _ _ _ _ E0). destruct TL as [_ [_ [[lp Lp] _]]].
  assert (LL : (length (otPre t) <= length (otPre a))%nat) by (rewrite Lp, app_length; lia).
  destruct (IH a t') as [A2 [B2 [C3 [D2 G2]]]]; auto.
  { intros k Hk. destruct (L k (or_intror Hk)) as [K1 K2]. split; [lia|]. intro K. destruct (D k K1 K) as [->|K3]; contradiction. }
  split; [auto|]. split; [auto|]. split; [congruence|]. split.
  - intros k [<-|Hk]; [|auto]. assert (TL2 := moveAll_le _ _ _ _ _ _ E). destruct TL2 as [_ [_ [_ [_ [lq ->]]]]]. apply in_or_app. auto.
  - intros k Hk Kp. destruct (G2 k) as [K|K]; [lia|auto|left; right; auto|]. destruct (D k Hk K) as [->|K2]; [left; left; auto|auto].
Qed.
Lemma exteriorNew_in (t : tbl) : forall l new, exteriorNew t l = Ok new -> forall k, In k new -> exists p, In p l /\ contAt t p = Some k /\ inP t k = false.
Proof.
  induction l as [|p l IH]; intros new E k Hk; cbn [exteriorNew] in E; [injection E as <-; destruct Hk|]. destruct (contAt t p) as [c|] eqn:Ec; [|discriminate]. bind_inv E. injection E as <-.
  assert (R : In k a -> exists p0, In p0 (p :: l) /\ contAt t p0 = Some k /\ inP t k = false) by (intro K; destruct (IH a eq_refl k K) as [q [Q1 Q2]]; exists q; split; [right; auto|auto]).
  destruct (inP t c) eqn:P; [auto|]. destruct (hasEqualityN (preAt t p)); [auto|]. destruct Hk as [<-|Hk]; [|auto]. exists p. split; [left; auto|auto].
Qed.
Lemma exteriorNew_nodup (t : tbl) : tree t -> forall l new, NoDup l -> exteriorNew t l = Ok new -> NoDup new.
Proof.
  intro T. induction l as [|p l IH]; intros new ND E; cbn [exteriorNew] in E; [injection E as <-; constructor|]. destruct (contAt t p) as [c|] eqn:Ec; [|discriminate]. bind_inv E. injection E as <-. inversion ND; subst.
  assert (N := IH a H2 eq_refl). destruct (inP t c); [auto|]. destruct (hasEqualityN (preAt t p)); [auto|]. constructor; [|auto]. intro K. destruct (exteriorNew_in t l a E0 c K) as [q [Q1 [Q2 _]]].
  assert (p = q) by (eapply (tr_inj t T); eauto). subst. contradiction.
Qed.
Lemma cont_lt (t : tbl) p k : tree t -> contAt t p = Some k -> (k < length (otPre t))%nat.
Proof. intros T E. destruct (tr_contP t T p k E) as [P _]. destruct (tr_cont t T p P) as [k' [A [B _]]]. congruence. Qed.
Lemma ordP_nodup t : tree t -> NoDup (ordP t).
Proof using HordP. intro T. eapply Permutation_NoDup; [apply Permutation_sym, HordP|apply (tr_nodup t T)]. Qed.
Lemma exteriorConsistent_str fuel t t' b : str t -> filled t -> exteriorConsistent o ordP place fuel t = Ok (t', b) ->
  str t' /\ filled t' /\ otSuf t' = otSuf t /\ if b then t' = t else exists i, (i < length (otPre t))%nat /\ ~ In i (otP t) /\ In i (otP t').
Proof using HO RI HordP.
  intros H F E. unfold exteriorConsistent in E. bind_inv E. assert (T := s_tree t H). assert (N := exteriorNew_nodup t T _ _ (ordP_nodup t T) E0). assert (I := exteriorNew_in t _ _ E0).
  destruct a as [|k new]; [injection E as <- <-; auto|]. bind_inv E. bind_inv E. injection E as <- <-.
  assert (L : forall i, In i (k :: new) -> (i < length (otPre t))%nat /\ ~ In i (otP t)).
  { intros i Hi. destruct (I i Hi) as [p [_ [Q2 Q3]]]. split; [eapply cont_lt; eauto|]. intro K. apply inP_iff in K. congruence. }
  destruct (moveAll_str fuel _ _ _ N L H F E1) as [A [B [C [D _]]]]. destruct (str_refresh _ _ A E2) as [A2 B2]. destruct (refresh_rest _ _ E2) as [_ [_ [Rs [RP _]]]].
  split; [auto|]. split; [auto|]. split; [congruence|]. exists k. destruct (L k (or_introl eq_refl)). split; [auto|]. split; [auto|]. rewrite RP. apply D. left; auto.
Qed.
Lemma saturateOne_some t p k t' c : saturateOne place t p k = Ok (t', Some c) -> c = k.
Proof.
  unfold saturateOne. destruct (equivMemo place t k p) as [t1 r1]. destruct r1; [|intro H; injection H as _ <-; auto].
  destruct (mapAt (relAt t1 k) p) as [[|q l]|]; [discriminate| |discriminate]. destruct (equivRows t1 k p []); [discriminate|]. intro H; injection H as _ <-; auto.
Qed.
Lemma same_contAt (t t' : tbl) p : same t t' -> contAt t' p = contAt t p.
Proof. intros [_ [_ [_ [_ [_ [_ [_ [E _]]]]]]]]. unfold contAt. rewrite E. auto. Qed.
Lemma same_inP (t t' : tbl) p : same t t' -> inP t' p = inP t p.
Proof. intros [_ [_ [_ [_ [_ [E _]]]]]]. unfold inP. rewrite E. auto. Qed.
Lemma saturateLoop_in : forall l t t' new, saturateLoop place t l = Ok (t', new) -> forall k, In k new -> exists p, In p l /\ contAt t p = Some k /\ inP t k = false.
Proof.
  induction l as [|p l IH]; intros t t' new E k Hk; cbn [saturateLoop] in E; [injection E as <- <-; destruct Hk|]. destruct (contAt t p) as [c|] eqn:Ec; [|discriminate].
  destruct (inP t c) eqn:P; [destruct (IH _ _ _ E k Hk) as [q [Q1 Q2]]; exists q; split; [right; auto|auto]|]. bind_inv E. destruct a as [t1 r]. bind_inv E. destruct a as [t2 nw]. injection E as <- <-.
  assert (S1 := saturateOne_same _ _ _ _ _ _ E0).
  assert (R : In k nw -> exists p0, In p0 (p :: l) /\ contAt t p0 = Some k /\ inP t k = false).
  { intro K. destruct (IH _ _ _ E1 k K) as [q [Q1 [Q2 Q3]]]. exists q. split; [right; auto|]. rewrite (same_contAt _ _ _ S1) in Q2. rewrite (same_inP _ _ _ S1) in Q3. auto. }
  destruct r as [r|]; [|auto]. apply saturateOne_some in E0. subst r. destruct Hk as [<-|Hk]; [|auto]. exists p. split; [left; auto|auto].
Qed.
Lemma saturateLoop_nodup : forall l t t' new, tree t -> NoDup l -> saturateLoop place t l = Ok (t', new) -> NoDup new.
Proof.
  induction l as [|p l IH]; intros t t' new T ND E; cbn [saturateLoop] in E; [injection E as <- <-; constructor|]. destruct (contAt t p) as [c|] eqn:Ec; [|discriminate]. inversion ND; subst.
  destruct (inP t c) eqn:P; [eapply IH; eauto|]. bind_inv E. destruct a as [t1 r]. bind_inv E. destruct a as [t2 nw]. injection E as <- <-. assert (S1 := saturateOne_same _ _ _ _ _ _ E0).
  assert (T1 := tree_asked _ _ (same_asked _ _ S1) T). assert (N := IH _ _ _ T1 H2 E1). destruct r as [r|]; [|auto]. apply saturateOne_some in E0. subst r. constructor; [|auto].
  intro K. destruct (saturateLoop_in _ _ _ _ E1 c K) as [q [Q1 [Q2 _]]]. rewrite (same_contAt _ _ _ S1) in Q2. assert (p = q) by (eapply (tr_inj t T); eauto). subst. contradiction.
Qed.
Lemma timeSaturate_str fuel t t' b : str t -> filled t -> timeSaturate o ordP place fuel t = Ok (t', b) ->
  str t' /\ filled t' /\ otSuf t' = otSuf t /\ if b then same t t' else exists i, (i < length (otPre t))%nat /\ ~ In i (otP t) /\ In i (otP t').
Proof using HO RI HordP.
  intros H F E. unfold timeSaturate in E. bind_inv E. destruct a as [t1 new]. assert (T := s_tree t H). assert (N := saturateLoop_nodup _ _ _ _ T (ordP_nodup t T) E0). assert (I := saturateLoop_in _ _ _ _ E0).
  apply saturateLoop_same in E0. assert (H1 := str_same _ _ E0 H). assert (F1 := filled_same _ _ E0 F). assert (S0 := E0). destruct E0 as [_ [_ [Ep [Es [_ [EP _]]]]]].
  destruct new as [|k new]; [injection E as <- <-; auto|]. bind_inv E. bind_inv E. injection E as <- <-.
  assert (L : forall i, In i (k :: new) -> (i < length (otPre t1))%nat /\ ~ In i (otP t1)).
  { intros i Hi. destruct (I i Hi) as [p [_ [Q2 Q3]]]. rewrite Ep, EP. split; [eapply cont_lt; eauto|]. intro K. apply inP_iff in K. congruence. }
  destruct (moveAll_str fuel _ _ _ N L H1 F1 E0) as [A [B [C [D _]]]]. destruct (str_refresh _ _ A E1) as [A2 B2]. destruct (refresh_rest _ _ E1) as [_ [_ [Rs [RP _]]]].
  split; [auto|]. split; [auto|]. split; [congruence|]. exists k. destruct (L k (or_introl eq_refl)) as [L1 L2]. rewrite Ep in L1. rewrite EP in L2. split; [auto|]. split; [auto|]. rewrite RP. apply D. left; auto.
Qed.
End Str.
