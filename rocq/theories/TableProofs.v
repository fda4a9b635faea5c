(** The observation table: the cache of the symbolic oracle and the filling of
    the table. *)
From Coq Require Import QArith ZArith Bool List Arith Lia Lqa.
From Verif Require Import BoundsModel BoundsProofs ConstraintModel ZoneModel ZoneSpec ZoneProofs AutomatonModel TimedWordModel TimedWordSpec TimedWordProofs
  TimedConditionModel TimedConditionSpec TimedConditionProofs ElementaryModel ElementarySpec ElementaryProofs ElementaryProofs2
  RegionalModel RegionalSpec OracleModel SymbolicModel SymbolicSpec SymbolicProofs SymbolicProofs2 TimedConditionProofs5 CexModel CexSpec RenamingModel RenamingSpec TableModel.
Import ListNotations.
Open Scope Q_scope.

(** ** equality of languages *)
Lemma eqLetters_refl l : eqLetters l l = true.
Proof. apply eqLetters_iff. reflexivity. Qed.
Lemma beqb_refl b : beqb b b = true.
Proof. unfold beqb. rewrite ble_refl. reflexivity. Qed.
Lemma beqb_sym a b : beqb a b = beqb b a.
Proof. unfold beqb. apply andb_comm. Qed.
Lemma beqb_trans a b c : beqb a b = true -> beqb b c = true -> beqb a c = true.
Proof.
  unfold beqb. rewrite !andb_true_iff. intros [A B] [C D]. split; eapply ble_trans; eauto.
Qed.
Lemma strictEqual_iff a b : zstrictEqual a b = true <-> forall i j, (i < dim a)%nat -> (j < dim a)%nat -> i = j \/ beqb (get a i j) (get b i j) = true.
Proof.
  unfold zstrictEqual. rewrite forallb_forall. split.
  - intros H i j Hi Hj. specialize (H i ltac:(apply in_seq; lia)). rewrite forallb_forall in H. specialize (H j ltac:(apply in_seq; lia)).
    apply orb_true_iff in H. destruct H as [H|H]; [left; apply Nat.eqb_eq; auto|auto].
  - intros H i Hi. apply forallb_forall. intros j Hj. apply in_seq in Hi, Hj. apply orb_true_iff. destruct (H i j ltac:(lia) ltac:(lia)) as [->|K]; [left; apply Nat.eqb_refl|auto].
Qed.
Lemma tcEqb_refl a : tcEqb a a = true.
Proof. unfold tcEqb. rewrite Nat.eqb_refl. apply strictEqual_iff. intros i j _ _. right. apply beqb_refl. Qed.
Lemma get_out m i j : (dim m <= i)%nat -> get m i j = Inf.
Proof. intro H. unfold get, dim in *. rewrite (nth_overflow m []) by auto. destruct j; reflexivity. Qed.
Lemma tcEqb_sym a b : tcEqb a b = true -> tcEqb b a = true.
Proof.
  unfold tcEqb. rewrite !andb_true_iff, !Nat.eqb_eq, !strictEqual_iff. intros [E H]. split; [auto|]. intros i j Hi Hj. unfold tcSize in E.
  destruct (Nat.eq_dec i j) as [->|N]; [auto|]. destruct (H i j) as [K|K]; [lia|lia|auto|]. right. rewrite beqb_sym. exact K.
Qed.
Lemma tcEqb_trans a b c : tcEqb a b = true -> tcEqb b c = true -> tcEqb a c = true.
Proof.
  unfold tcEqb. rewrite !andb_true_iff, !Nat.eqb_eq, !strictEqual_iff. intros [E H] [F G]. split; [congruence|]. intros i j Hi Hj. unfold tcSize in *.
  destruct (Nat.eq_dec i j) as [->|N]; [auto|]. destruct (H i j Hi Hj) as [K|K]; [auto|]. destruct (G i j) as [L|L]; [lia|lia|auto|]. right. eapply beqb_trans; eauto.
Qed.
Lemma elEqb_refl x : elEqb x x = true.
Proof. unfold elEqb. rewrite eqLetters_refl. apply tcEqb_refl. Qed.
Lemma elEqb_sym x y : elEqb x y = true -> elEqb y x = true.
Proof. unfold elEqb. rewrite !andb_true_iff, !eqLetters_iff. intros [A B]. split; [auto|apply tcEqb_sym; auto]. Qed.
Lemma elEqb_trans x y z : elEqb x y = true -> elEqb y z = true -> elEqb x z = true.
Proof. unfold elEqb. rewrite !andb_true_iff, !eqLetters_iff. intros [A B] [C D]. split; [congruence|eapply tcEqb_trans; eauto]. Qed.

(** ** the symbolic oracle's cache only grows *)
Definition cacheLe {St} (y y' : symOracle St) : Prop :=
  (forall x cs, findEL (smCache y) x = Some cs -> findEL (smCache y') x = Some cs) /\ (forall p, In p (smCache y) -> In p (smCache y')).
Lemma cacheLe_refl {St} (y : symOracle St) : cacheLe y y.
Proof. split; auto. Qed.
Lemma cacheLe_trans {St} (a b c : symOracle St) : cacheLe a b -> cacheLe b c -> cacheLe a c.
Proof. intros [A B] [C D]. split; auto. Qed.
Lemma findEL_cons k cs m x : findEL ((k, cs) :: m) x = if elEqb k x then Some cs else findEL m x.
Proof. unfold findEL. cbn [find fst]. destruct (elEqb k x); reflexivity. Qed.
Lemma findEL_eqb m x x' : elEqb x x' = true -> findEL m x = findEL m x'.
Proof.
  intro E. unfold findEL. f_equal. induction m as [|[k cs] m IH]; [reflexivity|]. cbn [find fst].
  destruct (elEqb k x) eqn:A, (elEqb k x') eqn:B; auto.
  - rewrite (elEqb_trans k x x' A E) in B. discriminate.
  - rewrite (elEqb_trans k x' x B (elEqb_sym _ _ E)) in A. discriminate.
Qed.
Lemma symQuery_cache {St} (o : mOracle St) y x y' cs : symQuery o y x = Some (y', cs) -> cacheLe y y' /\ findEL (smCache y') x = Some cs.
Proof.
  unfold symQuery. destruct (findEL (smCache y) x) as [cs0|] eqn:F.
  - intro E. injection E as <- <-. split; [split; auto|exact F].
  - destruct (included o (smOracle y) (elEnumerate x)) as [[[s inc] all]|]; [|discriminate]. cbv zeta.
    match goal with |- context [match ?m with Some _ => _ | None => None end] => destruct m as [cs0|]; [|discriminate] end.
    intro E. injection E as <- <-. cbn [smCache]. split; [|rewrite findEL_cons, elEqb_refl; reflexivity]. split; [|intros p Hp; right; auto].
    intros x0 cs1 H. cbn [smCache]. rewrite findEL_cons. destruct (elEqb x x0) eqn:E; [|auto]. rewrite (findEL_eqb _ _ _ E) in F. congruence.
Qed.
Lemma symQuery_hit {St} (o : mOracle St) y x cs : findEL (smCache y) x = Some cs ->
  symQuery o y x = Some (mkSym (smOracle y) (smCache y) (S (smCount y)) (smMiss y), cs).
Proof. intro E. unfold symQuery. rewrite E. reflexivity. Qed.

(** a language that may be asked about *)
Definition usable (x : elem) : Prop := queryable x /\ forall w, inElem x w -> properTW w.
Definition keysUsable {St} (y : symOracle St) : Prop := forall k cs, In (k, cs) (smCache y) -> usable k.
Lemma keysUsable_le {St} (y y' : symOracle St) : cacheLe y y' -> keysUsable y' -> keysUsable y.
Proof. intros [_ A] K k cs H. eapply K, A, H. Qed.

Section Oracle.
Context {St : Type} (o : mOracle St) (f : tword -> bool) (Inv : St -> Prop).
Hypothesis HO : forall s x, Inv s -> properTW x -> exists s', o s x = Some (s', f x) /\ Inv s'.
Hypothesis RI : regionInvariant properTW f.

(** as long as only usable languages have been asked about, the answers are
    right *)
Definition cacheOK (y : symOracle St) : Prop := keysUsable y -> symInv f Inv y.
Lemma cacheOK_query y x y' cs : cacheOK y -> symQuery o y x = Some (y', cs) -> cacheOK y'.
Proof using HO RI.
  intros C E K. destruct (symQuery_cache o y x y' cs E) as [L F]. assert (I := C (keysUsable_le _ _ L K)).
  destruct (findEL (smCache y) x) as [cs0|] eqn:G.
  - rewrite (symQuery_hit o y x cs0 G) in E. injection E as <- <-. exact I.
  - assert (U : usable x).
    { unfold symQuery in E. rewrite G in E. destruct (included o (smOracle y) (elEnumerate x)) as [[[s inc] all]|]; [|discriminate]. cbv zeta in E.
      match type of E with context [match ?m with Some _ => _ | None => None end] => destruct m as [cs0|]; [|discriminate] end.
      injection E as <- <-. apply (K x cs0). left. reflexivity. }
    destruct (symQuery_spec o f Inv properTW HO RI y x I (proj1 U) (proj2 U)) as [y1 [cs1 [E1 [I1 _]]]]. rewrite E in E1. injection E1 as <- <-. exact I1.
Qed.
Lemma cacheOK_usable_query y x : cacheOK y -> keysUsable y -> usable x -> exists y' cs, symQuery o y x = Some (y', cs) /\ keysUsable y'.
Proof using HO RI.
  intros C K U. destruct (symQuery_spec o f Inv properTW HO RI y x (C K) (proj1 U) (proj2 U)) as [y1 [cs1 [E1 _]]]. exists y1, cs1. split; [auto|].
  destruct (findEL (smCache y) x) as [cs0|] eqn:G.
  - rewrite (symQuery_hit o y x cs0 G) in E1. injection E1 as <- <-. exact K.
  - unfold symQuery in E1. rewrite G in E1. destruct (included o (smOracle y) (elEnumerate x)) as [[[s inc] all]|]; [|discriminate]. cbv zeta in E1.
    match type of E1 with context [match ?m with Some _ => _ | None => None end] => destruct m as [cs0|]; [|discriminate] end.
    injection E1 as <- <-. intros k cs [H|H]; [injection H as <- _; exact U|eapply K, H].
Qed.
(** an entry of the cache answers the question exactly *)
Lemma cache_exact y x cs : cacheOK y -> keysUsable y -> usable x -> findEL (smCache y) x = Some cs -> exactCell f x cs.
Proof using HO RI.
  intros C K U F. destruct (C K) as [_ I]. unfold findEL in F. destruct (find (fun p => elEqb (fst p) x) (smCache y)) as [[k ks]|] eqn:G; [|discriminate].
  cbn [option_map snd] in F. injection F as ->. apply find_some in G. destruct G as [G1 G2]. cbn [fst] in G2. destruct (I k cs G1) as [Qk [Ek [Ck Dk]]].
  destruct (exactAnswer_eq f k x cs Qk (proj1 U) G2 Ek) as [Ex El]. split; [exact Ex|]. rewrite <- El. split; [intros c Hc; apply (Ck c Hc)|].
  intros i j d Hi Hj. apply (cnt_unique d _ (Dk d)); auto.
Qed.
End Oracle.
