(** Properties of timed words (include/timed_word.hh): C17, C18. *)
From Coq Require Import QArith Bool List Arith Lia Lqa.
From Verif Require Import AutomatonModel TimedWordModel TimedWordSpec TimedWordProofs.
Import ListNotations.
Open Scope Q_scope.

Lemma later_timeline w : forall t s d, sameTL (timeline (t + s) w d) (later t (timeline s w d)).
Proof.
  induction w as [|a w IH]; intros t s d; destruct d as [|q d]; cbn [timeline later map]; try constructor.
  - cbn. split; [lra|reflexivity].
  - eapply sameTL_trans; [|apply IH]. apply timeline_Q; [lra|apply F2Q_refl].
Qed.

(** *** C17 *)
(** concatenation: the events of the first word, then those of the second
    delayed by the duration of the first; the durations add *)
Theorem C17_concat_timeline :
  forall x y : tword, wfTW x -> wfTW y ->
    wfTW (concatTW x y) /\
    sameTL (timelineOf (concatTW x y)) (timelineOf x ++ later (total (td x)) (timelineOf y)) /\
    total (td (concatTW x y)) == total (td x) + total (td y).
Proof.
  intros x y Hx Hy. split; [apply concat_wf; auto|]. split; [|apply concat_total; auto].
  eapply sameTL_trans; [apply timeline_concat; auto|]. apply sameTL_app; [apply sameTL_refl|].
  eapply sameTL_trans; [|apply later_timeline]. apply timeline_Q; [lra|apply F2Q_refl].
Qed.
Print Assumptions C17_concat_timeline.

(** the timeline and the total duration determine a word, so the previous
    statement characterises concatenation *)
Theorem C17_timeline_determines :
  forall x y : tword, wfTW x -> wfTW y ->
    (sameTL (timelineOf x) (timelineOf y) /\ total (td x) == total (td y) <-> sameTW x y).
Proof.
  intros x y Hx Hy. split.
  - intros [H1 H2]. exact (timeline_inj _ _ _ _ 0 Hx Hy H1 H2).
  - intros [E F]. unfold timelineOf. rewrite E. split; [apply timeline_Q; [reflexivity|auto]|apply total_Q, F].
Qed.
Print Assumptions C17_timeline_determines.

Theorem C17_concat_associative :
  forall x y z : tword, wfTW x -> wfTW y -> wfTW z ->
    sameTW (concatTW (concatTW x y) z) (concatTW x (concatTW y z)).
Proof. exact concat_assoc. Qed.
Print Assumptions C17_concat_associative.
Theorem C17_concat_unit :
  forall x : tword, wfTW x -> sameTW (concatTW emptyTW x) x /\ sameTW (concatTW x emptyTW) x.
Proof. intros x H. split; [apply concat_unit_l|apply concat_unit_r]; auto. Qed.
Print Assumptions C17_concat_unit.
Theorem C17_concat_congruent :
  forall x x' y y' : tword, sameTW x x' -> sameTW y y' -> sameTW (concatTW x y) (concatTW x' y').
Proof. exact concat_Q. Qed.
Print Assumptions C17_concat_congruent.

(** appending an action or a duration is concatenation with the word made of
    it *)
Theorem C17_concat_action_duration :
  forall (x : tword) (a : letter) (q : Q), wfTW x ->
    sameTW (concatChar x a) (concatTW x (mkTW [a] [0; 0])) /\ sameTW (concatDur x q) (concatTW x (mkTW [] [q])).
Proof.
  intros x a q H. destruct (snoc_wf x H) as (d & p & E & _). unfold concatChar, concatDur, concatTW. cbn [tw td hd tl]. rewrite E, !addBack_snoc. split; split; cbn [tw td].
  - reflexivity.
  - rewrite <- !app_assoc. apply F2Q_app; [apply F2Q_refl|]. cbn. constructor; [lra|]. constructor; [reflexivity|constructor].
  - rewrite app_nil_r. reflexivity.
  - rewrite app_nil_r. apply F2Q_refl.
Qed.
Print Assumptions C17_concat_action_duration.

Theorem C17_getSuffix_undoes_concat :
  forall x y : tword, wfTW x -> wfTW y -> ~ In UNOBSERVABLE (tw y) -> sameTW (getSuffix (concatTW x y) x) y.
Proof. exact suffix_of_concat. Qed.
Print Assumptions C17_getSuffix_undoes_concat.
Theorem C17_getSuffix_restores :
  forall x p : tword, wfTW x -> wfTW p -> ~ In UNOBSERVABLE (tw x) -> prefixTW p x ->
    sameTW (concatTW p (getSuffix x p)) x.
Proof. intros x p Wx Wp N (y & Wy & E). apply (suffix_restores x p y); auto. Qed.
Print Assumptions C17_getSuffix_restores.

(** element i of the accumulated durations is the time from the i-th event to
    the end *)
Theorem C17_accumulated :
  forall (x : tword) (i : nat), (i < length (td x))%nat ->
    length (getAccumulatedDurations x) = length (td x) /\
    nth i (getAccumulatedDurations x) 0 == total (skipn i (td x)).
Proof. intros x i H. split; [apply accum_len|apply accum_nth; auto]. Qed.
Print Assumptions C17_accumulated.

Theorem C17_equality_exact : forall x y : tword, eqTW x y = true <-> sameTW x y.
Proof. exact eqTW_iff. Qed.
Print Assumptions C17_equality_exact.

Definition exW1 := mkTW [1%nat; 2%nat] [1 # 2; 1; 0].
Definition exW2 := mkTW [3%nat] [2 # 3; 5].
Example C17_meets : wfTW exW1 /\ wfTW exW2 /\ ~ In UNOBSERVABLE (tw (concatTW exW1 exW2)) /\
  prefixTW exW1 (concatTW exW1 exW2) /\ sameTW (concatTW exW1 exW2) (mkTW [1%nat; 2%nat; 3%nat] [1 # 2; 1; 2 # 3; 5]) /\
  sameTW (getSuffix (concatTW exW1 exW2) exW1) exW2.
Proof.
  split; [reflexivity|]. split; [reflexivity|]. split; [cbn; intuition discriminate|].
  split; [exists exW2; split; [reflexivity|apply sameTW_refl]|]. split; apply eqTW_iff; reflexivity.
Qed.

(** *** C18 *)
Theorem C18_constructor_absorbs :
  forall (word : list letter) (durs : list Q), length durs = S (length word) ->
    let x := mkTimedWord word durs in
    wfTW x /\ ~ In UNOBSERVABLE (tw x) /\
    sameTL (timelineOf x) (observableTL (timeline 0 word durs)) /\ total (td x) == total durs.
Proof.
  intros word durs H. destruct durs as [|q durs]; [discriminate|]. injection H as H. cbn [mkTimedWord]. cbv zeta.
  split; [apply absorb_wf; auto|]. split; [apply absorb_obs|]. split; [apply absorb_timeline; auto|]. cbn [total]. apply absorb_total; auto.
Qed.
Print Assumptions C18_constructor_absorbs.

Theorem C18_constructor_keeps_observable :
  forall (word : list letter) (durs : list Q), length durs = S (length word) -> ~ In UNOBSERVABLE word ->
    mkTimedWord word durs = mkTW word durs.
Proof. intros word [|q durs] H N; [discriminate|]. injection H as H. apply absorb_id; auto. Qed.
Print Assumptions C18_constructor_keeps_observable.

Theorem C18_operations_keep_observable :
  forall (x y : tword) (q : Q), ~ In UNOBSERVABLE (tw x) -> ~ In UNOBSERVABLE (tw y) ->
    ~ In UNOBSERVABLE (tw (concatTW x y)) /\ ~ In UNOBSERVABLE (tw (concatDur x q)) /\
    ~ In UNOBSERVABLE (tw (getSuffix x y)).
Proof.
  intros x y q Hx Hy. split; [|split].
  - cbn. intro H. apply in_app_or in H. tauto.
  - exact Hx.
  - unfold getSuffix. destruct (skipn (wordSize y) (td x)); [cbn; auto|]. apply absorb_obs.
Qed.
Print Assumptions C18_operations_keep_observable.

(** appending an action does not absorb it *)
Theorem C18_append_action_refuted :
  exists (x : tword), wfTW x /\ ~ In UNOBSERVABLE (tw x) /\ In UNOBSERVABLE (tw (concatChar x UNOBSERVABLE)).
Proof. exists emptyTW. split; [reflexivity|]. split; [auto|]. left. reflexivity. Qed.
Print Assumptions C18_append_action_refuted.

Example C18_meets : length [1 # 2; 1; 2; 3] = S (length [1%nat; UNOBSERVABLE; 2%nat]) /\
  sameTW (mkTimedWord [1%nat; UNOBSERVABLE; 2%nat] [1 # 2; 1; 2; 3]) (mkTW [1%nat; 2%nat] [1 # 2; 3; 3]).
Proof. split; [reflexivity|]. apply eqTW_iff. reflexivity. Qed.
