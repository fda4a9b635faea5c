(** Almost-full relations (Vytiniotis, Coquand, Wahlstedt: "Stop when you are
    almost-full"): every infinite sequence has an increasing pair.  Used for
    the termination of the zone construction. *)
From Coq Require Import List Arith Lia.
Import ListNotations.

Inductive AF {X : Type} (R : X -> X -> Prop) : Prop :=
| AF_ZT : (forall x y, R x y) -> AF R
| AF_SUP : (forall x, AF (fun y z => R y z \/ R x y)) -> AF R.

Lemma AF_mono {X} (R : X -> X -> Prop) : AF R -> forall T : X -> X -> Prop, (forall x y, R x y -> T x y) -> AF T.
Proof.
  induction 1 as [R H|R H IH]; intros T HT; [apply AF_ZT; auto|]. apply AF_SUP. intro x. apply (IH x). intros y z [K|K]; auto.
Qed.
Lemma AF_nullary {X} (R : X -> X -> Prop) : AF R -> forall (T : X -> X -> Prop), AF T -> forall (C : X -> X -> Prop) (P Q : Prop),
  (forall x y, R x y -> C x y \/ P) -> (forall x y, T x y -> C x y \/ Q) -> AF (fun x y => C x y \/ (P /\ Q)).
Proof.
  induction 1 as [R H|R H IH]; intros T AT C P Q HR HT.
  - apply (AF_mono T AT). intros x y K. destruct (HT x y K); [auto|]. destruct (HR x y (H x y)); auto.
  - apply AF_SUP. intro x. apply (AF_mono _ (IH x T AT (fun y z => C y z \/ C x y) P Q ltac:(intros y z [K|K]; destruct (HR _ _ K); auto) ltac:(intros y z K; destruct (HT _ _ K); auto))).
    intros y z [[K|K]|K]; auto.
Qed.
Lemma AF_unary {X} (R : X -> X -> Prop) : AF R -> forall (T : X -> X -> Prop), AF T -> forall (C : X -> X -> Prop) (P Q : X -> Prop),
  (forall x y, R x y -> C x y \/ P x) -> (forall x y, T x y -> C x y \/ Q x) -> AF (fun x y => C x y \/ (P x /\ Q x)).
Proof.
  induction 1 as [R H|R H IHR].
  - intros T AT C P Q HR HT. apply (AF_mono T AT). intros x y K. destruct (HT x y K); [auto|]. destruct (HR x y (H x y)); auto.
  - intros T AT. assert (AR : AF R) by (apply AF_SUP; exact H). induction AT as [T HT0|T HT0 IHT]; intros C P Q HR HT.
    + apply (AF_mono R AR). intros x y K. destruct (HR x y K); [auto|]. destruct (HT x y (HT0 x y)); auto.
    + apply AF_SUP. intro x.
      assert (AT : AF T) by (apply AF_SUP; exact HT0).
      assert (K1 := IHR x T AT (fun y z => C y z \/ C x y \/ P x) P Q ltac:(intros y z [K|K]; destruct (HR _ _ K); auto) ltac:(intros y z K; destruct (HT _ _ K); auto)).
      assert (K2 := IHT x (fun y z => C y z \/ C x y \/ Q x) P Q ltac:(intros y z K; destruct (HR _ _ K); auto) ltac:(intros y z [K|K]; destruct (HT _ _ K); auto)).
      apply (AF_mono _ (AF_nullary _ K1 _ K2 (fun y z => C y z \/ C x y \/ (P y /\ Q y)) (P x) (Q x)
        ltac:(intros y z [[K|[K|K]]|K]; auto) ltac:(intros y z [[K|[K|K]]|K]; auto))).
      intros y z [[K|[K|K]]|K]; auto.
Qed.
(** the intersection of almost-full relations is almost-full *)
Lemma AF_binary {X} (R : X -> X -> Prop) : AF R -> forall (T : X -> X -> Prop), AF T -> forall (C P Q : X -> X -> Prop),
  (forall x y, R x y -> C x y \/ P x y) -> (forall x y, T x y -> C x y \/ Q x y) -> AF (fun x y => C x y \/ (P x y /\ Q x y)).
Proof.
  induction 1 as [R H|R H IHR].
  - intros T AT C P Q HR HT. apply (AF_mono T AT). intros x y K. destruct (HT x y K); [auto|]. destruct (HR x y (H x y)); auto.
  - intros T AT. assert (AR : AF R) by (apply AF_SUP; exact H). induction AT as [T HT0|T HT0 IHT]; intros C P Q HR HT.
    + apply (AF_mono R AR). intros x y K. destruct (HR x y K); [auto|]. destruct (HT x y (HT0 x y)); auto.
    + apply AF_SUP. intro x.
      assert (AT : AF T) by (apply AF_SUP; exact HT0).
      assert (K1 := IHR x T AT (fun y z => C y z \/ C x y \/ P x y) P Q ltac:(intros y z [K|K]; destruct (HR _ _ K); auto) ltac:(intros y z K; destruct (HT _ _ K); auto)).
      assert (K2 := IHT x (fun y z => C y z \/ C x y \/ Q x y) P Q ltac:(intros y z K; destruct (HR _ _ K); auto) ltac:(intros y z [K|K]; destruct (HT _ _ K); auto)).
      apply (AF_mono _ (AF_unary _ K1 _ K2 (fun y z => C y z \/ C x y \/ (P y z /\ Q y z)) (P x) (Q x)
        ltac:(intros y z [[K|[K|K]]|K]; auto) ltac:(intros y z [[K|[K|K]]|K]; auto))).
      intros y z [[K|[K|K]]|K]; auto.
Qed.
Lemma AF_inter {X} (R T : X -> X -> Prop) : AF R -> AF T -> AF (fun x y => R x y /\ T x y).
Proof.
  intros HR HT. apply (AF_mono _ (AF_binary R HR T HT (fun _ _ => False) R T ltac:(auto) ltac:(auto))). intros x y [[]|K]; auto.
Qed.
Lemma AF_inv {X Y} (f : Y -> X) (R : X -> X -> Prop) : AF R -> AF (fun a b => R (f a) (f b)).
Proof. induction 1 as [R H|R H IH]; [apply AF_ZT; auto|]. apply AF_SUP. intro y. apply (IH (f y)). Qed.
Lemma AF_le : AF le.
Proof.
  apply AF_SUP. induction x as [|x IH]; [apply AF_ZT; intros; lia|]. apply AF_SUP. intro y0.
  destruct (le_lt_dec (S x) y0) as [L|L]; [apply AF_ZT; auto|]. apply (AF_mono _ IH). intros y z [K|K]; [auto|]. right. left. lia.
Qed.
(** Dickson's lemma: finitely many measures *)
Definition allLe {X} (fs : list (X -> nat)) (a b : X) : Prop := forall f, In f fs -> f a <= f b.
Lemma AF_allLe {X} (fs : list (X -> nat)) : AF (allLe fs).
Proof.
  induction fs as [|f fs IH]; [apply AF_ZT; intros x y f []|].
  apply (AF_mono _ (AF_inter _ _ (AF_inv f le AF_le) IH)). intros x y [K1 K2] g [<-|I]; auto.
Qed.

(** sequences in which no element is above an earlier one are finite *)
Section Bar.
  Context {X : Type} (ok : X -> Prop) (R : X -> X -> Prop).
  Definition good (ns : list X) (y : X) : Prop := exists x, In x ns /\ R x y.
  Inductive Bar (ns : list X) : Prop := bar_intro : (forall y, ok y -> ~ good ns y -> Bar (y :: ns)) -> Bar ns.
  Lemma AF_Bar T : AF T -> forall ns, (forall y z, T y z -> R y z \/ good ns y) -> Bar ns.
  Proof.
    induction 1 as [T H|T H IH]; intros ns HT.
    - constructor. intros y _ Ny. constructor. intros z _ Nz. exfalso. apply Nz. exists y. split; [left; auto|]. destruct (HT y z (H y z)); [auto|contradiction].
    - constructor. intros y _ Ny. apply (IH y). intros z w [K|K].
      + destruct (HT _ _ K) as [K1|[x [I K1]]]; [auto|]. right. exists x. split; [right; auto|auto].
      + destruct (HT _ _ K) as [K1|K1]; [|contradiction]. right. exists y. split; [left; auto|auto].
  Qed.
  Inductive BadExt (ns : list X) : list X -> Prop :=
  | be_refl : BadExt ns ns
  | be_step y ms : BadExt ns ms -> ok y -> ~ good ms y -> BadExt ns (y :: ms).
  Lemma be_first ns ms : BadExt ns ms -> ms = ns \/ exists y, ok y /\ ~ good ns y /\ BadExt (y :: ns) ms.
  Proof.
    induction 1 as [|y ms H IH Oy Ny]; [auto|]. right. destruct IH as [->|[y0 [O0 [N0 E0]]]].
    - exists y. split; [auto|]. split; [auto|]. constructor.
    - exists y0. split; [auto|]. split; [auto|]. constructor; auto.
  Qed.
  Lemma be_trans a b c : BadExt a b -> BadExt b c -> BadExt a c.
  Proof. intros H K. induction K; [auto|]. constructor; auto. Qed.
End Bar.
