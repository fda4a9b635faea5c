(** The construction of the hypothesis: the rows met by letting time pass form
    the chains, and each chain is one state. *)
From Coq Require Import QArith ZArith Bool List Arith Lia Permutation.
From Verif Require Import BoundsModel ConstraintModel ZoneModel AutomatonModel AutomatonProofs TimedWordModel TimedConditionModel
  ElementaryModel RegionalModel OracleModel SymbolicModel CexModel RenamingModel TableModel TableProofs2 TableProofs3 HypothesisModel.
Import ListNotations.

(** ** states *)
Section States.
Context (alpha : list letter).
Definition stRep (sts : states) (n : nat) (mt : loc -> bool) (W : loc -> letter -> list trans) : Prop :=
  exists nx : loc -> nextmap, sts = map (fun l => (l, mkS (mt l) (nx l))) (seq 0 n) /\
    forall l, (l < n)%nat -> NoDup (map fst (nx l)) /\ (forall b, In b (map fst (nx l)) -> In b alpha) /\ forall a, nfind (nx l) a = W l a.
Definition updW (W : loc -> letter -> list trans) (l : loc) (a : letter) (ts : list trans) : loc -> letter -> list trans :=
  fun k b => if ((k =? l) && (b =? a))%nat then ts else W k b.
Lemma nfind_push nx a t b : nfind (pushNext nx a t) b = if (b =? a)%nat then nfind nx a ++ [t] else nfind nx b.
Proof.
  unfold nfind. induction nx as [|[c ts] nx IH]; cbn [pushNext find fst snd].
  - rewrite (Nat.eqb_sym a b). destruct (b =? a)%nat; reflexivity.
  - destruct (Nat.eqb_spec c a) as [->|Ne]; cbn [find fst snd].
    + rewrite (Nat.eqb_sym a b). destruct (b =? a)%nat; reflexivity.
    + destruct (Nat.eqb_spec c b) as [->|N2]; [|exact IH]. destruct (Nat.eqb_spec b a); [contradiction|reflexivity].
Qed.
Lemma stRep_ext sts n mt W mt' W' : (forall l, (l < n)%nat -> mt l = mt' l) -> (forall l a, (l < n)%nat -> W l a = W' l a) -> stRep sts n mt W -> stRep sts n mt' W'.
Proof.
  intros M E (nx & -> & H). exists nx. split.
  - apply map_ext_in. intros l Hl. apply in_seq in Hl. rewrite M by lia. reflexivity.
  - intros l Hl. destruct (H l Hl) as (A & B & C). split; [auto|]. split; [auto|]. intro a. rewrite C. apply E; auto.
Qed.
Lemma stRep_len sts n mt W : stRep sts n mt W -> length sts = n.
Proof. intros (nx & -> & _). rewrite map_length, seq_length. reflexivity. Qed.
Lemma find_seq {A} (f : nat -> A) n l : (l < n)%nat -> find (fun p : nat * A => (fst p =? l)%nat) (map (fun k => (k, f k)) (seq 0 n)) = Some (l, f l).
Proof.
  intro H. assert (K : forall b, (b <= l)%nat -> (l < b + n)%nat -> find (fun p : nat * A => (fst p =? l)%nat) (map (fun k => (k, f k)) (seq b n)) = Some (l, f l)).
  { clear H. induction n as [|n IH]; intros b A1 A2; [lia|]. cbn [seq map find fst]. destruct (Nat.eqb_spec b l) as [->|Ne]; [reflexivity|]. apply IH; lia. }
  apply K; lia.
Qed.
Lemma stRep_next h n mt W l a : stRep (hSt h) n mt W -> (l < n)%nat -> nextAt h l a = W l a.
Proof.
  intros (nx & E & H) Hl. unfold nextAt. rewrite E. refine (eq_trans (f_equal (fun o : option (loc * tastate) => match o with Some p => nfind (snext (snd p)) a | None => [] end) (find_seq (fun l => mkS (mt l) (nx l)) n l Hl)) _). cbn [snd snext]. apply (H l Hl).
Qed.
Lemma stRep_push sts n mt W l a tr : stRep sts n mt W -> (l < n)%nat -> In a alpha -> stRep (pushTo sts l a tr) n mt (updW W l a (W l a ++ [tr])).
Proof.
  intros (nx & -> & H) Hl Ha. exists (fun k => if (k =? l)%nat then pushNext (nx k) a tr else nx k). split.
  - unfold pushTo. rewrite map_map. apply map_ext. intro k. cbn [fst snd AutomatonModel.isMatch snext]. destruct (k =? l)%nat; reflexivity.
  - intros k Hk. destruct (H k Hk) as (A & B & C). unfold updW. destruct (Nat.eqb_spec k l) as [->|Ne]; cbn [andb].
    + split; [apply pushNext_nodup; auto|]. split; [intros b Hb; apply pushNext_keys in Hb; destruct Hb as [Hb|Hb]; [auto|congruence]|]. intro b. rewrite nfind_push, !C. reflexivity.
    + auto.
Qed.
Lemma stRep_pushes {E} (g : E -> trans) l a : forall es sts n mt W, stRep sts n mt W -> (l < n)%nat -> In a alpha ->
  stRep (fold_left (fun s e => pushTo s l a (g e)) es sts) n mt (updW W l a (W l a ++ map g es)).
Proof.
  induction es as [|e es IH]; intros sts n mt W H Hl Ha; cbn [fold_left map].
  - rewrite app_nil_r. apply (stRep_ext sts n mt W); auto. intros k b Hk. unfold updW. destruct (Nat.eqb_spec k l) as [->|]; [|reflexivity]. destruct (Nat.eqb_spec b a) as [->|]; reflexivity.
  - apply (stRep_push _ _ _ _ l a (g e)) in H; auto. apply IH in H; auto. refine (stRep_ext _ _ _ _ _ _ _ _ H); [auto|]. intros k b Hk. unfold updW.
    rewrite !Nat.eqb_refl. cbn [andb]. rewrite <- app_assoc. cbn [app]. destruct ((k =? l) && (b =? a))%nat; reflexivity.
Qed.
Lemma stRep_add sts n mt W b : stRep sts n mt W -> mt n = b -> (forall a, W n a = []) -> stRep (sts ++ [(n, mkS b [])]) (S n) mt W.
Proof.
  intros (nx & -> & H) M E. exists (fun k => if (k =? n)%nat then [] else nx k). split.
  - rewrite seq_S, map_app. cbn [map plus]. rewrite Nat.eqb_refl, M. f_equal. apply map_ext_in. intros k Hk. apply in_seq in Hk. destruct (Nat.eqb_spec k n); [lia|reflexivity].
  - intros l Hl. destruct (Nat.eqb_spec l n) as [->|Ne]; [|apply H; lia]. split; [constructor|]. split; [intros ? []|]. intro a. rewrite E. reflexivity.
Qed.
Lemma hPush_sts h l a tr : hSt (hPush h l a tr) = pushTo (hSt h) l a tr.
Proof. reflexivity. Qed.
Lemma hPushes {E} (g : E -> trans) l a : forall es h, hSt (fold_left (fun h e => hPush h l a (g e)) es h) = fold_left (fun s e => pushTo s l a (g e)) es (hSt h) /\
  hMap (fold_left (fun h e => hPush h l a (g e)) es h) = hMap h /\ hIdx (fold_left (fun h e => hPush h l a (g e)) es h) = hIdx h.
Proof. induction es as [|e es IH]; intro h; cbn [fold_left]; [auto|]. apply (IH (hPush h l a (g e))). Qed.
End States.

(** positions in a list *)
Fixpoint pos (R : list nat) (d : nat) : nat := match R with [] => 0 | x :: r => if (x =? d)%nat then 0 else S (pos r d) end.
Lemma pos_app A B d : In d A -> pos (A ++ B) d = pos A d.
Proof. induction A as [|x A IH]; intro H; [destruct H|]. cbn [app pos]. destruct (Nat.eqb_spec x d); [reflexivity|]. destruct H as [H|H]; [contradiction|]. rewrite IH; auto. Qed.
Lemma pos_new A B d : ~ In d A -> pos (A ++ d :: B) d = length A.
Proof. induction A as [|x A IH]; intro H; cbn [app pos length]; [rewrite Nat.eqb_refl; reflexivity|]. destruct (Nat.eqb_spec x d) as [->|]; [exfalso; apply H; left; auto|]. rewrite IH; [auto|]. intro K. apply H. right; auto. Qed.
Lemma pos_lt A d : In d A -> (pos A d < length A)%nat /\ nth (pos A d) A 0%nat = d.
Proof. induction A as [|x A IH]; intro H; [destruct H|]. cbn [pos length]. destruct (Nat.eqb_spec x d) as [->|Ne]; [cbn [nth]; split; [lia|auto]|]. destruct H as [H|H]; [contradiction|]. destruct (IH H). cbn [nth]. split; [lia|auto]. Qed.
Lemma pos_nth A l : NoDup A -> (l < length A)%nat -> pos A (nth l A 0%nat) = l.
Proof.
  revert l. induction A as [|x A IH]; intros l ND H; [cbn in H; lia|]. inversion ND as [|? ? N1 N2]; subst. destruct l as [|l]; cbn [nth pos]; [rewrite Nat.eqb_refl; reflexivity|].
  cbn [length] in H. destruct (Nat.eqb_spec x (nth l A 0%nat)) as [->|]; [exfalso; apply N1, nth_In; lia|]. rewrite IH; auto; lia.
Qed.

(** ** chains *)
Section Chains.
Context {St : Type}.
Notation tbl := (ot St).
Fixpoint chainF (n : nat) (t : tbl) (r : nat) : list nat :=
  match n with
  | O => [r]
  | S m => match contAt t r with None => [r] | Some k => if inP t k then r :: chainF m t k else [r; k] end
  end.
Definition chain (t : tbl) (r : nat) : list nat := chainF (length (otPre t)) t r.
Inductive isChain (t : tbl) : nat -> list nat -> Prop :=
| ch_end r k : contAt t r = Some k -> inP t k = false -> isChain t r [r; k]
| ch_step r k l : contAt t r = Some k -> inP t k = true -> isChain t k l -> isChain t r (r :: l).
Definition isRoot (t : tbl) (r : nat) : Prop := forall p, contAt t p <> Some r.
Definition timeStable (t : tbl) : Prop := forall p k, contAt t p = Some k -> isMatch t p = isMatch t k.
Definition hAdds (h : hyp) (st : loc) (ks : list nat) : hyp := fold_left (fun h k => hAdd h st k) ks h.

Lemma chainF_ok (t : tbl) : tree t -> forall n r, In r (otP t) -> (length (otPre t) <= n + r)%nat -> isChain t r (chainF n t r).
Proof.
  intros T n. induction n as [|n IH]; intros r Hr L; [apply (tr_lt t T) in Hr; lia|]. cbn [chainF]. destruct (tr_cont t T r Hr) as (k & Ck & _). rewrite Ck.
  destruct (inP t k) eqn:Ik; [|apply ch_end; auto]. apply (ch_step t r k); auto. apply IH; [apply inP_iff; auto|]. destruct (tr_contP t T r k Ck). lia.
Qed.
Lemma isChain_hd (t : tbl) r l : isChain t r l -> exists l', l = r :: l' /\ l' <> [].
Proof. intros H. destruct H as [r k|r k l A B C]; [exists [k]; split; [auto|discriminate]|]. exists l. split; [auto|]. destruct C; discriminate. Qed.
Lemma isChain_fun (t : tbl) r l : isChain t r l -> forall l', isChain t r l' -> l = l'.
Proof.
  induction 1 as [r k A B|r k l A B C IH]; intros l' H'; inversion H' as [? k' A' B'|? k' l'' A' B' C']; subst; rewrite A in A'; injection A' as <-; try congruence.
  f_equal. apply IH; auto.
Qed.
Lemma chain_ok (t : tbl) r : tree t -> In r (otP t) -> isChain t r (chain t r).
Proof. intros T H. apply chainF_ok; auto. lia. Qed.
Lemma mergeCont_ok (t : tbl) : tree t -> timeStable t -> forall n h st r, In r (otP t) -> (length (otPre t) <= n + r)%nat ->
  mergeCont n t h st r = Ok (hAdds h st (tl (chainF n t r))).
Proof.
  intros T M n. induction n as [|n IH]; intros h st r Hr L; [apply (tr_lt t T) in Hr; lia|]. cbn [mergeCont chainF]. destruct (tr_cont t T r Hr) as (k & Ck & _). rewrite Ck.
  rewrite (M r k Ck), eqb_reflx. destruct (inP t k) eqn:Ik; [|reflexivity].
  destruct (tr_contP t T r k Ck) as [_ Lk]. rewrite IH; [|apply inP_iff; auto|lia]. cbn [tl]. assert (C := chainF_ok t T n k (proj1 (inP_iff t k) Ik) ltac:(lia)).
  destruct (isChain_hd t k _ C) as (l' & -> & _). reflexivity.
Qed.
(** the members of a chain *)
Lemma chain_mem (t : tbl) r l : isChain t r l -> forall i, In i l -> i = r \/ exists p, contAt t p = Some i /\ In p l /\ inP t p = true \/ contAt t p = Some i /\ p = r.
Proof.
  induction 1 as [r k A B|r k l A B C IH]; intros i Hi.
  - destruct Hi as [<-|[<-|[]]]; [auto|]. right. exists r. right. auto.
  - destruct Hi as [<-|Hi]; [auto|]. right. destruct (IH i Hi) as [->|[p [[P1 [P2 P3]]|[P1 ->]]]]; [exists r; right; auto|exists p; left|exists k; left].
    + split; [auto|]. split; [right; auto|auto].
    + split; [auto|]. split; [|auto]. right. destruct (isChain_hd t k l C) as (l' & -> & _). left; auto.
Qed.
Lemma chain_pred (t : tbl) r l i : In r (otP t) -> isChain t r l -> In i l -> i = r \/ exists p, contAt t p = Some i /\ In p l /\ In p (otP t).
Proof.
  intros Hr C Hi. destruct (chain_mem t r l C i Hi) as [->|[p [[P1 [P2 P3]]|[P1 ->]]]]; [auto|right; exists p; rewrite <- inP_iff; auto|right; exists r].
  split; [auto|]. split; [|auto]. destruct (isChain_hd t r l C) as (l' & -> & _). left; auto.
Qed.
Lemma chain_ge (t : tbl) r l : tree t -> isChain t r l -> forall i, In i l -> (r <= i)%nat.
Proof.
  intro T. induction 1 as [r k A B|r k l A B C IH]; intros i Hi; destruct (tr_contP t T r k A) as [_ L].
  - destruct Hi as [<-|[<-|[]]]; lia.
  - destruct Hi as [<-|Hi]; [lia|]. apply IH in Hi. lia.
Qed.
Lemma chain_nodup (t : tbl) r l : tree t -> isChain t r l -> NoDup l.
Proof.
  intro T. induction 1 as [r k A B|r k l A B C IH]; destruct (tr_contP t T r k A) as [_ L].
  - constructor; [intros [E|[]]; lia|constructor; [intros []|constructor]].
  - constructor; [|auto]. intro K. apply (chain_ge t k l T C) in K. lia.
Qed.
Lemma chain_lt (t : tbl) r l : tree t -> isChain t r l -> forall i, In i l -> (i < length (otPre t))%nat.
Proof.
  intro T. induction 1 as [r k A B|r k l A B C IH]; intros i Hi; destruct (tr_contP t T r k A) as [P L].
  - destruct Hi as [<-|[<-|[]]]; [apply (tr_lt t T); auto|]. destruct (tr_cont t T r P) as (k' & A' & B' & _). congruence.
  - destruct Hi as [<-|Hi]; [apply (tr_lt t T); auto|]. auto.
Qed.
(** two roots with a common row in their chains are the same *)
Lemma chain_disj (t : tbl) r r' l l' : tree t -> In r (otP t) -> In r' (otP t) -> isRoot t r -> isRoot t r' -> isChain t r l -> isChain t r' l' ->
  forall i, In i l -> In i l' -> r = r'.
Proof.
  intros T Pr Pr' Rr Rr' C C' i. induction i as [i IH] using lt_wf_ind. intros H H'.
  destruct (chain_pred t r l i Pr C H) as [Ei|(p & P1 & P2 & P3)], (chain_pred t r' l' i Pr' C' H') as [E|(q & Q1 & Q2 & Q3)]; auto.
  - congruence.
  - subst i. exfalso. apply (Rr q); auto.
  - subst i. exfalso. apply (Rr' p); auto.
  - assert (p = q) by (apply (tr_inj t T p q i); auto). subst q. apply (IH p); auto. destruct (tr_contP t T p i P1). auto.
Qed.
(** every row of P is in the chain of a root *)
Lemma chain_of (t : tbl) : tree t -> forall i, In i (otP t) -> exists r, In r (otP t) /\ isRoot t r /\ In i (chain t r).
Proof.
  intros T i. induction i as [i IH] using lt_wf_ind. intro Hi.
  destruct (existsb (fun p => match contAt t p with Some k => (k =? i)%nat | None => false end) (otP t)) eqn:E.
  - apply existsb_exists in E. destruct E as (p & Hp & E). destruct (contAt t p) as [k|] eqn:Ck; [|discriminate]. apply Nat.eqb_eq in E. subst k.
    destruct (IH p (proj2 (tr_contP t T p i Ck)) Hp) as (r & R1 & R2 & R3). exists r. split; [auto|]. split; [auto|].
    assert (C := chain_ok t r T R1). revert R3. clear - C Ck Hi Hp. apply inP_iff in Hp. induction C as [r k A B|r k l A B C IH]; intro H.
    + apply inP_iff in Hi. destruct H as [<-|[<-|[]]]; [rewrite A in Ck; injection Ck as ->; right; left; auto|].
      exfalso. congruence.
    + destruct H as [<-|H]; [|right; auto]. rewrite A in Ck. injection Ck as ->. right. destruct (isChain_hd t _ l C) as (l' & -> & _). left; auto.
  - exists i. split; [auto|]. split; [|destruct (isChain_hd t i _ (chain_ok t i T Hi)) as (l' & -> & _); left; auto].
    intros p Cp. destruct (tr_contP t T p i Cp) as [Pp _]. assert (X : existsb (fun p => match contAt t p with Some k => (k =? i)%nat | None => false end) (otP t) = true) by (apply existsb_exists; exists p; rewrite Cp, Nat.eqb_refl; auto). congruence.
Qed.
End Chains.
