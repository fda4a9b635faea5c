(** Properties of zones (include/zone.hh, include/juxtaposed_zone*.hh):
    C09-C16, C36-C38. *)
From Coq Require Import QArith ZArith Bool List Lqa Lia.
From Verif Require Import BoundsModel ConstraintModel GuardSpec ZoneModel ZoneSpec.
From Verif Require Import BoundsProofs ZoneProofs ZoneProofs2 ZoneProofs3 ZoneProofs4 ZoneProofs5 ZoneProofs6.
Import ListNotations.
Open Scope Q_scope.

Lemma not_in_by_point n m w : dim m = S n -> isSatisfiable (zand m (zpoint n w)) = false -> ~ inZone m w.
Proof.
  intros D Sa H. enough (isSatisfiable (zand m (zpoint n w)) = true) by congruence.
  apply isSatisfiable_exact. exists w. apply zand_exact; [|split; [exact H|apply zpoint_exact; intros x _; reflexivity]].
  rewrite D. unfold zpoint. symmetry. generalize (seq 0 n). intro l.
  enough (forall m, dim m = S n -> dim (fold_left (zpoint1 w) l m) = S n) as K by (apply K; apply dim_mk).
  induction l as [|a l IH]; intros m' Dm; [exact Dm|]. cbn. apply IH. unfold zpoint1. rewrite !dim_tighten. exact Dm.
Qed.
Lemma nd2 (a b : nat) : a <> b -> NoDup [a; b].
Proof. intro H. constructor; [intros [E|[]]; congruence|constructor; [intros []|constructor]]. Qed.
Lemma nonempty_00 r : nonemptyZ r -> (0 < dim r)%nat -> bsat (get r 0 0) 0.
Proof. intros [w H] D. specialize (H 0%nat 0%nat D D). cbn in H. exact H. Qed.

(** a running example: 1 <= x0 < 3, x0 - x1 <= 1, 0 <= x1 *)
Definition exZ : matrix :=
  [ [bz; Fin (-1) true; Fin 0 true];
    [Fin 3 false; bz; Fin 1 true];
    [Inf; Inf; bz] ].
Definition exW : valuation := fun x => match x with O => 2 | _ => 1 end.

Example exZ_meets : inZone exZ exW /\ dim exZ = 3%nat.
Proof.
  split; [|reflexivity]. intros i j Hi Hj. cbn in Hi, Hj.
  do 3 (destruct i as [|i]; [do 3 (destruct j as [|j]; [vm_compute; auto; discriminate|]); lia|]); lia.
Qed.
Example exZ_canonical : inZone (canonize exZ) exW /\ closed (canonize exZ).
Proof.
  split; [apply canonize_inZone, exZ_meets|].
  apply canonize_closed_sat. exists exW. apply exZ_meets.
Qed.

(** C09 *)
Theorem C09_canonize_same_set :
  forall (m : matrix) (w : valuation), inZone (canonize m) w <-> inZone m w.
Proof. exact canonize_inZone. Qed.
Print Assumptions C09_canonize_same_set.

Theorem C09_canonize_closed : forall m : matrix, nonemptyZ m -> closed (canonize m).
Proof. exact canonize_closed_sat. Qed.
Print Assumptions C09_canonize_closed.

(** closed under implied bounds = each entry is the tightest one *)
Theorem C09_canonize_tight : forall m : matrix, nonemptyZ m -> tight (canonize m).
Proof.
  intros m H. apply closed_tight; [exact (canonize_closed_sat m H)|].
  apply nonempty_nonneg2. destruct H as [w H]. exists w. apply canonize_inZone, H.
Qed.
Print Assumptions C09_canonize_tight.

(** C10 *)
Theorem C10_isSatisfiable_exact :
  forall m : matrix, isSatisfiable m = true <-> exists w, inZone m w.
Proof. exact isSatisfiable_exact. Qed.
Print Assumptions C10_isSatisfiable_exact.

(** on a canonical zone the test without canonization is exact too *)
Theorem C10_isSatisfiableNoCanonize_exact :
  forall m : matrix, closed m -> (isSatNoCanon m = true <-> exists w, inZone m w).
Proof.
  intros m C. rewrite isSatNoCanon_spec. split.
  - exact (closed_sat m C).
  - exact (nonempty_nonneg2 m).
Qed.
Print Assumptions C10_isSatisfiableNoCanonize_exact.

(** C11 *)
Theorem C11_tighten_guard_exact :
  forall (m : matrix) (g : guard) (w : valuation),
    (forall k, In k g -> (S (cx k) < dim m)%nat) ->
    (inZone (tightenG m g) w <-> inZone m w /\ gsat g w).
Proof. intros m g w H. exact (tightenG_exact g m w H). Qed.
Print Assumptions C11_tighten_guard_exact.

Theorem C11_tighten_keeps_canonical :
  forall (m : matrix) (g : guard),
    (forall k, In k g -> (S (cx k) < dim m)%nat) ->
    closed m -> nonemptyZ (tightenG m g) -> closed (tightenG m g) /\ tight (tightenG m g).
Proof.
  intros m g H C N. assert (K := tightenG_closed g m H C (nonempty_nonneg2 _ N)).
  split; [exact K | exact (closed_tight _ K (nonempty_nonneg2 _ N))].
Qed.
Print Assumptions C11_tighten_keeps_canonical.

Theorem C11_intersection_exact :
  forall (a b : matrix) (w : valuation),
    dim a = dim b -> (inZone (zand a b) w <-> inZone a w /\ inZone b w).
Proof. exact zand_exact. Qed.
Print Assumptions C11_intersection_exact.

Example C11_nonvacuous :
  (forall k, In k [mkC 0 Ogt 1; mkC 1 Ole 5] -> (S (cx k) < dim exZ)%nat)
  /\ isSatisfiable (tightenG exZ [mkC 0 Ogt 1; mkC 1 Ole 5]) = true
  /\ isSatisfiable (tightenG exZ [mkC 0 Ogt 2; mkC 1 Olt 1]) = false.
Proof. split; [intros k [<-|[<-|[]]]; cbn; lia | vm_compute; auto]. Qed.

(** a point zone holds exactly that point; the zero and top zones *)
Theorem C11_point_zone_exact :
  forall (n : nat) (v w : valuation), inZone (zpoint n v) w <-> agree n w v.
Proof. exact zpoint_exact. Qed.
Print Assumptions C11_point_zone_exact.

Theorem C11_zero_and_top_exact :
  forall (n : nat) (w : valuation),
    (inZone (zzero (S n)) w <-> forall x, (x < n)%nat -> w x == 0) /\ inZone (ztop (S n)) w.
Proof. intros n w; split; [exact (zzero_exact n w) | exact (ztop_all (S n) w)]. Qed.
Print Assumptions C11_zero_and_top_exact.

(** C12 *)
Theorem C12_elapse_exact :
  forall (m : matrix) (w' : valuation),
    (0 < dim m)%nat -> closed m -> nonemptyZ m ->
    (inZone (elapse m) w' <->
     exists w d, 0 <= d /\ inZone m w /\ forall x, w' x == w x + d).
Proof.
  intros m w' Hd C N. split.
  - exact (elapse_complete m w' Hd C (nonempty_nonneg2 m N)).
  - intros (w & d & Hd' & Hw & E).
    apply (inZone_ext _ (delay w d)); [intros z _; symmetry; exact (E z) | exact (elapse_sound m w d Hd' Hw)].
Qed.
Print Assumptions C12_elapse_exact.

Theorem C12_elapse_keeps_canonical : forall m : matrix, closed m -> closed (elapse m).
Proof. exact elapse_closed. Qed.
Print Assumptions C12_elapse_keeps_canonical.

Theorem C12_reverseElapse_exact :
  forall (m : matrix) (w : valuation),
    (0 < dim m)%nat -> closed m -> nonemptyZ m ->
    (inZone (reverseElapse m) w <->
     (forall x, (S x < dim m)%nat -> 0 <= w x) /\
     exists d, 0 <= d /\ inZone m (delay w d)).
Proof.
  intros m w Hd C N. split.
  - exact (reverseElapse_complete m w Hd C (nonempty_nonneg2 m N)).
  - intros [Hw (d & Hd' & H)]. exact (reverseElapse_sound m w d Hd' Hw H).
Qed.
Print Assumptions C12_reverseElapse_exact.

(** The canonicity precondition is necessary: on a non-canonical matrix the
    time successors computed are a strict superset. *)
Theorem C12_elapse_needs_canonical :
  exists (m : matrix) (w' : valuation),
    nonemptyZ m /\ inZone (elapse m) w' /\
    ~ exists w d, 0 <= d /\ inZone m w /\ forall x, w' x == w x + d.
Proof.
  (* x0 = 0 and x1 = 0, given without the implied x0 - x1 bounds *)
  exists [[bz; bz; bz]; [bz; bz; Inf]; [bz; Inf; bz]], (fun x => match x with O => 1 | _ => 2 end).
  split; [|split].
  - exists (fun _ => 0). intros i j Hi Hj. cbn in Hi, Hj.
    do 3 (destruct i as [|i]; [do 3 (destruct j as [|j]; [vm_compute; auto; discriminate|]); lia|]); lia.
  - intros i j Hi Hj. unfold elapse in *. rewrite dim_mk in *. cbn in Hi, Hj.
    do 3 (destruct i as [|i]; [do 3 (destruct j as [|j]; [vm_compute; auto; discriminate|]); lia|]); lia.
  - intros (w & d & Hd & Hw & E).
    assert (A := Hw 1%nat 0%nat ltac:(cbn; lia) ltac:(cbn; lia)).
    assert (B := Hw 0%nat 1%nat ltac:(cbn; lia) ltac:(cbn; lia)).
    assert (C := Hw 2%nat 0%nat ltac:(cbn; lia) ltac:(cbn; lia)).
    assert (D := Hw 0%nat 2%nat ltac:(cbn; lia) ltac:(cbn; lia)).
    cbn in A, B, C, D. assert (E0 := E 0%nat). assert (E1 := E 1%nat). cbn in E0, E1. lra.
Qed.
Print Assumptions C12_elapse_needs_canonical.

(** C13 *)
Theorem C13_includes_sound :
  forall (a b : matrix), dim a = dim b -> zincludes a b = true ->
    forall w, inZone b w -> inZone a w.
Proof. intros a b D H w. exact (zincludes_sound a b w D H). Qed.
Print Assumptions C13_includes_sound.

Theorem C13_includes_complete :
  forall (a b : matrix), dim a = dim b -> closed b -> nonemptyZ b ->
    (forall i, (i < dim b)%nat -> ble (get b i i) (get a i i) = true) ->
    (forall w, inZone b w -> inZone a w) -> zincludes a b = true.
Proof. intros a b D C N Hd H. exact (zincludes_complete a b D C (nonempty_nonneg2 b N) Hd H). Qed.
Print Assumptions C13_includes_complete.

Theorem C13_strictEqual_exact :
  forall (a b : matrix), dim a = dim b -> closed a -> nonemptyZ a -> closed b -> nonemptyZ b ->
    (zstrictEqual a b = true <-> forall w, inZone a w <-> inZone b w).
Proof.
  intros a b D Ca Na Cb Nb.
  exact (zstrictEqual_exact a b D Ca (nonempty_nonneg2 a Na) Cb (nonempty_nonneg2 b Nb)).
Qed.
Print Assumptions C13_strictEqual_exact.

Example C13_nonvacuous :
  zincludes (canonize exZ) (canonize (tightenG exZ [mkC 0 Ole 2])) = true
  /\ zincludes (canonize (tightenG exZ [mkC 0 Ole 2])) (canonize exZ) = false.
Proof. vm_compute. auto. Qed.

(** C14 *)
Theorem C14_extrapolate_enlarges :
  forall (maxConstraints : list Q) (m : matrix) (w : valuation),
    inZone m w -> inZone (extrapolate maxConstraints m) w.
Proof. intros mc m w. exact (Z_enlarge _ _ (extrapolate_mle mc m) w). Qed.
Print Assumptions C14_extrapolate_enlarges.

Theorem C14_abstractize_enlarges :
  forall (M : Q) (m : matrix) (w : valuation), inZone m w -> inZone (abstractize M m) w.
Proof. intros M m w. exact (Z_enlarge _ _ (abstractize_mle M m) w). Qed.
Print Assumptions C14_abstractize_enlarges.

Example C14_nonvacuous : zincludes (canonize exZ) (extrapolate [1; 1] (canonize exZ)) = false.
Proof. vm_compute. reflexivity. Qed.

(** C15.  Full property: for every list of resets,
    [inZone (zapplyResets m rs) w' <-> exists w in m, w' = applyReset w rs].
    It holds for race-free lists (no clock assigned twice, no renaming reads a
    clock that an earlier renaming of the same list overwrote)... *)
Theorem C15_zone_resets_exact_partial :
  forall (m : matrix) (n : nat) (rs : resets),
    dim m = S n -> closed m -> nonemptyZ m ->
    (forall x r, In (x, r) rs -> (S x < S n)%nat /\ match r with RConst _ => True | RVar y => (S y < S n)%nat end) ->
    raceFree rs ->
    forall w', inZone (zapplyResets m rs) w' <->
               exists w, inZone m w /\ agree n w' (applyReset w rs).
Proof.
  intros m n rs D C N Hr RF. exact (zapplyResets_exact rs m n D (conj C (nonempty_nonneg2 m N)) N Hr RF).
Qed.
Print Assumptions C15_zone_resets_exact_partial.

(** ... and keeps the zone canonical and non-empty whatever the list *)
Theorem C15_zone_resets_canonical :
  forall (m : matrix) (n : nat) (rs : resets),
    dim m = S n -> closed m -> nonemptyZ m ->
    (forall x r, In (x, r) rs -> (S x < S n)%nat /\ match r with RConst _ => True | RVar y => (S y < S n)%nat end) ->
    closed (zapplyResets m rs) /\ nonemptyZ (zapplyResets m rs).
Proof.
  intros m n rs D C N Hr.
  destruct (zapplyResets_seq rs m n D (conj C (nonempty_nonneg2 m N)) N Hr) as (_ & [K _] & K' & _).
  exact (conj K K').
Qed.
Print Assumptions C15_zone_resets_canonical.

Example C15_nonvacuous :
  raceFree [(0%nat, RVar 1%nat); (1%nat, RConst (3#2))].
Proof.
  split; [repeat constructor; cbn; intuition congruence|].
  intros a x y b E z Hz. destruct a as [|p a]; [destruct Hz|].
  injection E as <- E. destruct a as [|p' a]; [discriminate|]. injection E as <- E. destruct a; discriminate.
Qed.


(** swapping two clocks: the runner swaps, the zone copies one over the other *)
Theorem C15_swap_refuted :
  exists (m : matrix) (rs : resets) (w : valuation),
    closed m /\ inZone m w /\ NoDup (map fst rs) /\ ~ inZone (zapplyResets m rs) (applyReset w rs).
Proof.
  set (w := (fun x => match x with O => 1 | _ => 2 end) : valuation).
  exists (canonize (zpoint 2 w)), [(0%nat, RVar 1%nat); (1%nat, RVar 0%nat)], w.
  assert (K : inZone (zpoint 2 w) w) by (apply zpoint_exact; intros z _; reflexivity).
  split; [apply canonize_closed_sat; exists w; exact K|].
  split; [apply canonize_inZone, K|].
  split; [apply nd2; discriminate|].
  apply (not_in_by_point 2); vm_compute; reflexivity.
Qed.
Print Assumptions C15_swap_refuted.

(** *** C16 juxtaposition *)
(** the juxtaposition of two zones: the first clocks are those of the left
    zone, the others those of the right zone; nothing is lost or invented *)
Theorem C16_juxtapose_exact :
  forall (l r : matrix) (w : valuation), (0 < dim l)%nat -> nonemptyZ r -> (0 < dim r)%nat ->
    (inZone (jux l r) w <->
     inZone l w /\ inZone r (fun k => w (pred (dim l) + k)%nat)).
Proof. intros l r w Dl Nr Dr. exact (jux_exact l r w Dl Dr (nonempty_00 r Nr Dr)). Qed.
Print Assumptions C16_juxtapose_exact.

(** with [cv] shared clocks (the last of both): the shared ones satisfy both *)
Theorem C16_juxtapose_common_exact :
  forall (l r : matrix) (cv : nat) (w : valuation),
    (0 < dim l)%nat -> (0 < dim r)%nat -> nonemptyZ r -> (cv <= pred (dim l))%nat -> (cv <= pred (dim r))%nat ->
    (inZone (juxCommon l r cv) w <->
     inZone l w /\
     inZone r (fun k => if (k <? pred (dim r) - cv)%nat then w (pred (dim l) + k)%nat
                        else w (pred (dim l) - cv + (k - (pred (dim r) - cv)))%nat)).
Proof. intros l r cv w Dl Dr Nr H1 H2. exact (juxCommon_exact l r cv Dl Dr H1 H2 (nonempty_00 r Nr Dr) w). Qed.
Print Assumptions C16_juxtapose_common_exact.

(** adding a renaming restricts to the valuations whose related clocks are equal,
    and keeps the matrix canonical if anything is left *)
Theorem C16_addRenaming_exact :
  forall (ls : nat) (m : matrix) (ren : list (nat * nat)) (w : valuation),
    (forall p, In p ren -> (S (fst p) < dim m)%nat /\ (snd p + ls + 1 < dim m)%nat) ->
    (inZone (addRenaming ls m ren) w <->
     inZone m w /\ forall l r, In (l, r) ren -> w l == w (ls + r)%nat).
Proof.
  intros ls m ren w H. rewrite (addRenaming_exact ls m ren w H).
  split; intros [A B]; split; auto; [intros l r I; exact (B (l, r) I)|intros [l r] I; exact (B l r I)].
Qed.
Print Assumptions C16_addRenaming_exact.

Theorem C16_addRenaming_keeps_canonical :
  forall (ls : nat) (m : matrix) (ren : list (nat * nat)),
    (forall p, In p ren -> (S (fst p) < dim m)%nat /\ (snd p + ls + 1 < dim m)%nat) ->
    closed m -> nonemptyZ (addRenaming ls m ren) -> closed (addRenaming ls m ren).
Proof. intros ls m ren H C N. exact (addRenaming_closed ls m ren H C (nonempty_nonneg2 _ N)). Qed.
Print Assumptions C16_addRenaming_keeps_canonical.

(** the right part is exactly the projection on the right clocks *)
Theorem C16_getRight_exact :
  forall (ls rs : nat) (m : matrix) (w : valuation), dim m = (ls + rs + 1)%nat -> closed m -> nonemptyZ m ->
    (inZone (getRight ls rs m) w <->
     exists w0, inZone m w0 /\ forall x, (x < rs)%nat -> w x == w0 (ls + x)%nat).
Proof. intros ls rs m w D C N. exact (getRight_exact ls rs m w D C (nonempty_nonneg2 _ N)). Qed.
Print Assumptions C16_getRight_exact.

(** the whole pipeline: juxtapose, equate, keep the right part *)
Theorem C16_right_after_renaming_exact :
  forall (l r : matrix) (ren : list (nat * nat)) (w : valuation),
    (0 < dim l)%nat -> (0 < dim r)%nat ->
    (forall p, In p ren -> (fst p < pred (dim l))%nat /\ (snd p < pred (dim r))%nat) ->
    nonemptyZ l -> nonemptyZ r ->
    let j := addRenaming (pred (dim l)) (jux l r) ren in
    isSatNoCanon j = true ->
    (inZone (getRight (pred (dim l)) (pred (dim r)) j) w <->
     inZone r w /\ exists wl, inZone l wl /\ forall p, In p ren -> wl (fst p) == w (snd p)).
Proof. intros l r ren w Dl Dr H Nl Nr j Sa. exact (jux_right_exact l r ren w Dl Dr (nonempty_00 r Nr Dr) H Nl Nr Sa). Qed.
Print Assumptions C16_right_after_renaming_exact.

(** reading a renaming off a juxtaposed zone gives exactly the pairs of clocks
    equal throughout the zone *)
Theorem C16_makeRenaming_exact :
  forall (ls rs : nat) (m : matrix), dim m = (ls + rs + 1)%nat -> closed m -> nonemptyZ m ->
    forall l r, In (l, r) (makeRenaming ls rs m) <->
      (l < ls)%nat /\ (r < rs)%nat /\ forall w, inZone m w -> w l == w (ls + r)%nat.
Proof. intros ls rs m D C N l r. exact (makeRenaming_exact ls rs m D C (nonempty_nonneg2 _ N) (l, r)). Qed.
Print Assumptions C16_makeRenaming_exact.

Example C16_nonvacuous :
  let j := addRenaming 2 (jux exZ exZ) [(0, 1)]%nat in
  isSatNoCanon j = true /\ makeRenaming 2 2 j = [(0, 1)]%nat /\
  isSatisfiable (juxCommon exZ exZ 1) = true /\
  zincludes (getRight 2 2 j) exZ = false.
Proof. vm_compute. auto. Qed.

(** *** C36 Zone::sample *)
(** Full property: [sample] of a non-empty zone of non-negative clocks is in the
    zone.  Proved when (in canonical form) a clock with an inclusive lower bound
    and no equal
    inclusive upper bound has no strict difference bound towards an earlier clock. *)
Theorem C36_sample_in_zone_partial :
  forall m : matrix, (0 < dim m)%nat -> nonemptyZ m ->
    (forall i, (S i < dim m)%nat -> ble (get (canonize m) 0 (S i)) (Fin 0 true) = true) ->
    (forall i, (S i < dim m)%nat -> bincl (get (canonize m) 0 (S i)) = true ->
       isPoint (get (canonize m) (S i) 0) (get (canonize m) 0 (S i)) = false ->
       forall j, (j < i)%nat -> match get (canonize m) (S j) (S i) with Fin _ s => s = true | Inf => True end) ->
    length (zsample m) = pred (dim m) /\ inZone m (fun k => nth k (zsample m) 0).
Proof.
  intros m D N H1 H2. apply zsample_in; auto.
  - intros i Hi. rewrite dim_canonize in Hi. apply H1; auto.
  - intros i Hi. rewrite dim_canonize in Hi. intros B P j Hj. exact (H2 i Hi B P j Hj).
Qed.
Print Assumptions C36_sample_in_zone_partial.

(** in particular on every zone cut out by equations and strict inequalities
    only, such as regions *)
Theorem C36_sample_in_relatively_open_zone :
  forall m : matrix, (0 < dim m)%nat -> nonemptyZ m -> relOpen (inZone m) ->
    (forall w, inZone m w -> forall x, (S x < dim m)%nat -> 0 <= w x) ->
    length (zsample m) = pred (dim m) /\ inZone m (fun k => nth k (zsample m) 0).
Proof. exact zsample_relOpen. Qed.
Print Assumptions C36_sample_in_relatively_open_zone.
Theorem C36_equations_and_strict_inequalities_relatively_open :
  forall m : matrix,
    (forall i j c, (i < dim m)%nat -> (j < dim m)%nat -> i <> j -> get m i j = Fin c true ->
       exists c', c' == - c /\ ble (get m j i) (Fin c' true) = true) ->
    relOpen (inZone m).
Proof. exact relOpen_zone. Qed.
Print Assumptions C36_equations_and_strict_inequalities_relatively_open.

Example C36_nonvacuous : isSatisfiable exZ = true /\ zsample exZ = [1; 0] .
Proof. vm_compute. auto. Qed.

Theorem C36_sample_refuted :
  exists m : matrix, nonemptyZ m /\ (forall w, inZone m w -> forall x, (x < pred (dim m))%nat -> 0 <= w x) /\
    ~ inZone m (fun k => nth k (zsample m) 0).
Proof.
  exists sampleBad. destruct sampleBad_bad as [A B]. split; [apply isSatisfiable_exact; exact A|]. split.
  - intros w H x Hx. destruct x as [|[|[|x]]]; [| | |vm_compute in Hx; lia].
    + specialize (H 0%nat 1%nat ltac:(vm_compute; lia) ltac:(vm_compute; lia)). cbn in H. lra.
    + specialize (H 0%nat 2%nat ltac:(vm_compute; lia) ltac:(vm_compute; lia)). cbn in H. lra.
    + specialize (H 0%nat 3%nat ltac:(vm_compute; lia) ltac:(vm_compute; lia)). cbn in H. lra.
  - apply (not_in_by_point 3); [reflexivity|exact B].
Qed.
Print Assumptions C36_sample_refuted.

(** *** C37 Zone::revertResets *)
(** Full property: reverting the resets of a transition gives the valuations
    whose reset lies in the zone.  Proved for resets to constants (each clock
    once), on a zone where the reset clocks have the assigned values. *)
Theorem C37_revert_resets_is_preimage_partial :
  forall (rs : resets) (m : matrix) (n : nat),
    dim m = S n -> closed m -> nonemptyZ m ->
    (forall x r, In (x, r) rs -> (x < n)%nat /\ exists q, r = RConst q) ->
    NoDup (map fst rs) ->
    (forall w' x q, inZone m w' -> In (x, RConst q) rs -> w' x == q) ->
    forall w, inZone (zrevertResets m rs) w <-> inZone m (applyReset w rs).
Proof.
  intros rs m n D C N H ND V. apply (zrevertResets_wp rs m n D (conj C (nonempty_nonneg2 m N)) N); auto.
  - intros x r I. exact (proj2 (H x r I)).
  - intros x r I. exact (proj1 (H x r I)).
Qed.
Print Assumptions C37_revert_resets_is_preimage_partial.

(** without the last condition the result is still exact for "everything but the
    reset clocks is kept" *)
Theorem C37_revert_constant_resets_frees :
  forall (rs : resets) (m : matrix) (n : nat),
    dim m = S n -> closed m -> nonemptyZ m ->
    (forall x r, In (x, r) rs -> (x < n)%nat /\ exists q, r = RConst q) ->
    forall w, inZone (zrevertResets m rs) w <->
      exists w', inZone m w' /\ forall z, (z < n)%nat -> ~ In z (map fst rs) -> w z == w' z.
Proof.
  intros rs m n D C N H. apply (zrevertResets_const rs m n D (conj C (nonempty_nonneg2 m N)) N).
  - intros x r I. exact (proj2 (H x r I)).
  - intros x r I. exact (proj1 (H x r I)).
Qed.
Print Assumptions C37_revert_constant_resets_frees.

Example C37_nonvacuous :
  let m := canonize (zpoint 2 (fun _ => 1)) in
  isSatisfiable m = true /\ zincludes (zrevertResets m [(0%nat, RConst 1)]) (canonize (zpoint 2 (fun x => match x with O => 7 | _ => 1 end))) = true.
Proof. vm_compute. auto. Qed.

(** with renamings an actual predecessor can be lost *)
Theorem C37_renaming_refuted :
  exists (rs : resets) (m : matrix) (w : valuation),
    NoDup (map fst rs) /\ inZone m (applyReset w rs) /\ ~ inZone (zrevertResets m rs) w.
Proof.
  set (w := (fun x => match x with O => 5 | 1%nat => 1 | _ => 2 end) : valuation).
  exists [(1%nat, RVar 2%nat); (0%nat, RVar 1%nat)], (zpoint 3 (applyReset w [(1%nat, RVar 2%nat); (0%nat, RVar 1%nat)])), w.
  split; [apply nd2; discriminate|].
  split; [apply zpoint_exact; intros z _; reflexivity|].
  apply (not_in_by_point 3); [reflexivity|exact zrevertResets_rename_lost].
Qed.
Print Assumptions C37_renaming_refuted.

(** *** C38 sets of juxtaposed zones *)
Theorem C38_set_addRenaming_exact :
  forall (ls n : nat) (zs : list matrix) (ren : list (nat * nat)) (w : valuation),
    (forall m, In m zs -> dim m = n /\ closed m) ->
    (forall p, In p ren -> (S (fst p) < n)%nat /\ (snd p + ls + 1 < n)%nat) ->
    ((exists m, In m (jsAddRenaming ls zs ren) /\ inZone m w) <->
     (exists m, In m zs /\ inZone m w) /\ forall p, In p ren -> w (fst p) == w (ls + snd p)%nat) /\
    (forall m, In m (jsAddRenaming ls zs ren) -> nonemptyZ m /\ closed m).
Proof.
  intros ls n zs ren w H R. destruct (jsAddRenaming_exact ls n zs ren w H R) as [A B]. split; [exact A|].
  intros m I. destruct (B m I) as [[C _] N]. auto.
Qed.
Print Assumptions C38_set_addRenaming_exact.

(** Full property: two sets compare equal iff they contain the same zones.
    A positive answer is right if the left set has no two equal zones. *)
Theorem C38_set_equality_sound_partial :
  forall (n : nat) (a b : list matrix),
    (forall m, In m a \/ In m b -> dim m = n /\ closed m /\ nonemptyZ m) ->
    pairwiseDiff a -> jsEq a b = true ->
    forall w, (exists m, In m a /\ inZone m w) <-> (exists m, In m b /\ inZone m w).
Proof.
  intros n a b H P E. apply (jsEq_sound n a b); auto.
  - intros m I. destruct (H m (or_introl I)) as (D & C & N). split; [auto|split; [auto|apply nonempty_nonneg2; auto]].
  - intros m I. destruct (H m (or_intror I)) as (D & C & N). split; [auto|split; [auto|apply nonempty_nonneg2; auto]].
Qed.
Print Assumptions C38_set_equality_sound_partial.

Theorem C38_set_equality_refuted :
  exists (a b : list matrix),
    jsEq a b = true /\ jsEq b a = false /\
    exists w, (exists m, In m b /\ inZone m w) /\ ~ exists m, In m a /\ inZone m w.
Proof.
  exists [canonize (zpoint 1 (fun _ => 1)); canonize (zpoint 1 (fun _ => 1))],
         [canonize (zpoint 1 (fun _ => 1)); canonize (zpoint 1 (fun _ => 2))].
  destruct jsEq_dup as [A B]. split; [exact A|]. split; [exact B|].
  exists (fun _ => 2). split.
  - exists (canonize (zpoint 1 (fun _ => 2))). split; [right; left; reflexivity|].
    apply canonize_inZone, zpoint_exact. intros x _. reflexivity.
  - intros [m [[<-|[<-|[]]] H]]; apply canonize_inZone, zpoint_exact in H; specialize (H 0%nat ltac:(lia)); cbn in H; lra.
Qed.
Print Assumptions C38_set_equality_refuted.

Example C38_nonvacuous :
  let A := canonize (zpoint 1 (fun _ => 1)) in let B := canonize (zpoint 1 (fun _ => 2)) in
  pairwiseDiff [A; B] /\ jsEq [A; B] [B; A] = true.
Proof.
  split; [|vm_compute; reflexivity]. constructor; [|constructor; [intros m' []|constructor]].
  intros m' [<-|[]] H. specialize (H (fun _ => 1)). 
  assert (K : inZone (canonize (zpoint 1 (fun _ => 2))) (fun _ => 1)) by (apply H; apply canonize_inZone, zpoint_exact; intros x _; reflexivity).
  apply canonize_inZone, zpoint_exact in K. specialize (K 0%nat ltac:(lia)); cbn in K; lra.
Qed.
