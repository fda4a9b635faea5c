(** Model of the membership and equivalence oracles and of the learner's main
    loop (include/membership_oracle.hh, equivalence_oracle_by_test.hh,
    equivalence_oracle_by_random_test.hh, equivalence_oracle_memo.hh,
    equivalance_oracle_chain.hh, learner.hh).
    An object is a state with methods of type [state -> arguments ->
    option (state * result)]; [None] is non-termination (fuel) or undefined
    behaviour.  Classes that wrap an arbitrary oracle are polymorphic in it. *)
From Coq Require Import QArith Bool List Arith.
From Verif Require Import BoundsModel ConstraintModel ZoneModel AutomatonModel TimedWordModel.
Import ListNotations.
Open Scope Q_scope.

(** the virtual method answerQuery *)
Definition mOracle (St : Type) := St -> tword -> option (St * bool).
(** the virtual method findCounterExample *)
Definition eOracle (St : Type) := St -> ta -> option (St * option tword).

(** membership_oracle.hh:39-51 SULMembershipOracle over a runner *)
Definition sulAnswer (fuel : nat) : mOracle runner := fun r x => answerQuery fuel r (firstDur x) (events x).

(** membership_oracle.hh:61-67 *)
Record cache (St : Type) := mkCache { cOracle : St; cMap : list (tword * bool); cNoCache : nat }.
Arguments mkCache {St}. Arguments cOracle {St}. Arguments cMap {St}. Arguments cNoCache {St}.
Definition newCache {St} (s : St) : cache St := mkCache s [] 0.
(** boost::unordered_map::find: the entry whose key is operator== to the word *)
Definition findTW (m : list (tword * bool)) (x : tword) : option bool :=
  option_map snd (find (fun p => eqTW (fst p) x) m).
(** membership_oracle.hh:69-79 *)
Definition cacheAnswer {St} (o : mOracle St) : mOracle (cache St) := fun c x =>
  match findTW (cMap c) x with
  | Some b => Some (mkCache (cOracle c) (cMap c) (S (cNoCache c)), b)
  | None => match o (cOracle c) x with
            | Some (s, b) => Some (mkCache s ((x, b) :: cMap c) (S (cNoCache c)), b)
            | None => None
            end
  end.

(** a client asking a list of words *)
Fixpoint askAll {St} (o : mOracle St) (s : St) (xs : list tword) : option (St * list bool) :=
  match xs with
  | [] => Some (s, [])
  | x :: r => match o s x with
              | Some (s', b) => match askAll o s' r with Some (s'', bs) => Some (s'', b :: bs) | None => None end
              | None => None
              end
  end.

(** equivalence_oracle_by_test.hh:33-55, the loop body for one word: [dw],
    [dd] are the letters and durations already fed, [ws], [ds] the rest, and
    [full] the word itself *)
Fixpoint testFrom (fuel : nat) (full : tword) (rt rh : runner) (dw : list letter) (dd : list Q)
    (ws : list letter) (ds : list Q) : option (runner * runner * option tword) :=
  match ds with
  | [] => None
  | d :: ds' =>
      match stepDur fuel rt d, stepDur fuel rh d with
      | Some (rt1, bt), Some (rh1, bh) =>
          match ws with
          | [] => Some (rt1, rh1, if negb (eqb bt bh) then Some full else None)
          | a :: ws' =>
              if negb (eqb bt bh) then Some (rt1, rh1, Some (mkTimedWord dw (dd ++ [d])))
              else
                let (rt2, ct) := stepChar rt1 a in
                let (rh2, ch) := stepChar rh1 a in
                if negb (eqb ct ch) then Some (rt2, rh2, Some (mkTimedWord (dw ++ [a]) (dd ++ [d] ++ [0])))
                else testFrom fuel full rt2 rh2 (dw ++ [a]) (dd ++ [d]) ws' ds'
          end
      | _, _ => None
      end
  end.
(** lines 30-58: the loop over the registered words, with runners kept from
    word to word *)
Fixpoint testWords (fuel : nat) (rt rh : runner) (words : list tword) : option (option tword) :=
  match words with
  | [] => Some None
  | x :: r => match testFrom fuel x (rpre rt) (rpre rh) [] [] (tw x) (td x) with
              | Some (_, _, Some cex) => Some (Some cex)
              | Some (rt', rh', None) => testWords fuel rt' rh' r
              | None => None
              end
  end.
(** equivalence_oracle_by_test.hh:20-27 *)
Record byTest := mkByTest { btWords : list tword; btTarget : ta; btCount : nat }.
Definition byTestFind (fuel : nat) : eOracle byTest := fun s H =>
  match testWords fuel (mkRunner (btTarget s)) (mkRunner H) (btWords s) with
  | Some r => Some (mkByTest (btWords s) (btTarget s) (S (btCount s)), r)
  | None => None
  end.
(** equivalence_oracle_by_test.hh:62-64 *)
Definition byTestPush (s : byTest) (x : tword) : byTest := mkByTest (btWords s ++ [x]) (btTarget s) (btCount s).

(** equivalence_oracle_by_random_test.hh:50-74: [tests] is what the random
    generators deliver, for each test the [maxLength] (duration, letter) pairs
    and the last duration; the number of tests is at most [maxTests] *)
Fixpoint randFrom (fuel : nat) (rt rh : runner) (w : list letter) (d : list Q)
    (steps : list (Q * letter)) (lastD : Q) : option (runner * runner * option tword) :=
  match steps with
  | [] => match stepDur fuel rt lastD, stepDur fuel rh lastD with
          | Some (rt1, bt), Some (rh1, bh) =>
              Some (rt1, rh1, if negb (eqb bt bh) then Some (mkTimedWord w (d ++ [lastD])) else None)
          | _, _ => None
          end
  | (q, a) :: r =>
      match stepDur fuel rt q, stepDur fuel rh q with
      | Some (rt1, bt), Some (rh1, bh) =>
          if negb (eqb bt bh) then Some (rt1, rh1, Some (mkTimedWord w (d ++ [q])))
          else
            let (rt2, ct) := stepChar rt1 a in
            let (rh2, ch) := stepChar rh1 a in
            if negb (eqb ct ch) then Some (rt2, rh2, Some (mkTimedWord (w ++ [a]) (d ++ [q] ++ [0])))
            else randFrom fuel rt2 rh2 (w ++ [a]) (d ++ [q]) r lastD
      | _, _ => None
      end
  end.
Fixpoint randTests (fuel : nat) (rt rh : runner) (tests : list (list (Q * letter) * Q)) : option (option tword) :=
  match tests with
  | [] => Some None
  | (steps, q) :: r =>
      match randFrom fuel (rpre rt) (rpre rh) [] [] steps q with
      | Some (_, _, Some cex) => Some (Some cex)
      | Some (rt', rh', None) => randTests fuel rt' rh' r
      | None => None
      end
  end.
Definition randomFind (fuel : nat) (target H : ta) (tests : list (list (Q * letter) * Q)) : option (option tword) :=
  randTests fuel (mkRunner target) (mkRunner H) tests.

(** equivalence_oracle_memo.hh:21-25 *)
Record memo (St : Type) := mkMemo { mOrac : St; mTest : byTest; mCount : nat }.
Arguments mkMemo {St}. Arguments mOrac {St}. Arguments mTest {St}. Arguments mCount {St}.
Definition newMemo {St} (s : St) (target : ta) : memo St := mkMemo s (mkByTest [] target 0) 0.
(** equivalence_oracle_memo.hh:30-44 *)
Definition memoFind {St} (fuel : nat) (o : eOracle St) : eOracle (memo St) := fun m H =>
  match byTestFind fuel (mTest m) H with
  | None => None
  | Some (t', Some cex) => Some (mkMemo (mOrac m) t' (S (mCount m)), Some cex)
  | Some (t', None) =>
      match o (mOrac m) H with
      | None => None
      | Some (s', Some cex) => Some (mkMemo s' (byTestPush t' cex) (S (mCount m)), Some cex)
      | Some (s', None) => Some (mkMemo s' t' (S (mCount m)), None)
      end
  end.

(** equivalance_oracle_chain.hh:21-32; the member oracles have their own
    states *)
Fixpoint chainLoop {St} (os : list (eOracle St * St)) (H : ta) : option (list (eOracle St * St) * option tword) :=
  match os with
  | [] => Some ([], None)
  | (o, s) :: r =>
      match o s H with
      | None => None
      | Some (s', Some cex) => Some ((o, s') :: r, Some cex)
      | Some (s', None) => match chainLoop r H with
                           | None => None
                           | Some (r', res) => Some ((o, s') :: r', res)
                           end
      end
  end.
Definition chainFind {St} : eOracle (nat * list (eOracle St * St)) := fun s H =>
  match chainLoop (snd s) H with
  | None => None
  | Some (os', res) => Some ((S (fst s), os'), res)
  end.

(** a client making equivalence queries one after the other *)
Fixpoint findAll {St} (o : eOracle St) (s : St) (hs : list ta) : option (St * list (option tword)) :=
  match hs with
  | [] => Some (s, [])
  | h :: r => match o s h with
              | Some (s', x) => match findAll o s' r with Some (s'', xs) => Some (s'', x :: xs) | None => None end
              | None => None
              end
  end.

(** learner.hh:22-27.  The observation table is arbitrary: its five methods
    used by the main loop, and the zone-based simplification of the
    hypothesis, are parameters.  A check returns false when it updated the
    table. *)
Record table (Tb : Type) := mkTable {
  tClose : Tb -> option (Tb * bool);
  tConsistent : Tb -> option (Tb * bool);
  tExterior : Tb -> option (Tb * bool);
  tTimeSat : Tb -> option (Tb * bool);
  tGenerate : Tb -> ta;
  tHandleCEX : Tb -> tword -> option Tb }.
Arguments tClose {Tb}. Arguments tConsistent {Tb}. Arguments tExterior {Tb}. Arguments tTimeSat {Tb}.
Arguments tGenerate {Tb}. Arguments tHandleCEX {Tb}.
(** [notUpdated = notUpdated && check()] *)
Definition thenCheck {Tb} (r : option (Tb * bool)) (check : Tb -> option (Tb * bool)) : option (Tb * bool) :=
  match r with
  | Some (t, true) => check t
  | r => r
  end.
(** learner.hh:31-37, the inner loop *)
Fixpoint saturate {Tb} (T : table Tb) (fuel : nat) (t : Tb) : option Tb :=
  match fuel with
  | O => None
  | S n => match thenCheck (thenCheck (thenCheck (tClose T t) (tConsistent T)) (tExterior T)) (tTimeSat T) with
           | Some (t', true) => Some t'
           | Some (t', false) => saturate T n t'
           | None => None
           end
  end.
(** learner.hh:28-55; the result is the returned hypothesis with the final
    states and the pairs (hypothesis, counterexample) of the earlier rounds *)
Fixpoint learn {Tb St} (T : table Tb) (simplifyWithZones : ta -> ta) (o : eOracle St) (fuel : nat) (t : Tb) (s : St)
  : option (Tb * St * ta * list (ta * tword)) :=
  match fuel with
  | O => None
  | S n =>
      match saturate T fuel t with
      | None => None
      | Some t1 =>
          let h := simplifyWithZones (taSimplifyStrong (tGenerate T t1)) in
          match o s h with
          | None => None
          | Some (s', None) => Some (t1, s', h, [])
          | Some (s', Some cex) =>
              match tHandleCEX T t1 cex with
              | None => None
              | Some t2 => match learn T simplifyWithZones o n t2 s' with
                           | None => None
                           | Some (t3, s3, h3, log) => Some (t3, s3, h3, (h, cex) :: log)
                           end
              end
          end
      end
  end.
