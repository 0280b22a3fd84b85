(** What a client of a container observes, in terms of the sequences of its indices. *)
From Verif Require Import Prelude Layer LayerBase OrdSpec PosOk Stack.
From Verif Require HashSeq HashSpec.
Set Implicit Arguments.

Section Spec.
Variable V : Type.
Variable hd : node.   (* end() of every index *)

(** the sequence [l] of index [c] is in order for the values [val] *)
Definition legal (c : code V) (val : node -> V) (l : list node) : Prop :=
  match c with
  | Ordered key lt uniq _ _ =>
      StronglySorted (fun x y => if uniq then lt (key (val x)) (key (val y)) = true
                                 else lt (key (val y)) (key (val x)) = false) l
  | Sequenced _ _ _ => True
  | RandomAccess _ _ => True
  | Hashed key eq hash uniq _ _ _ => HashSeq.h_legal key eq uniq val l
  end.
(** index [c] does not admit both values *)
Definition clash (c : code V) (v w : V) : Prop :=
  match c with
  | Ordered key lt uniq _ _ => uniq = true /\ lt (key v) (key w) = false /\ lt (key w) (key v) = false
  | Sequenced _ _ _ => False
  | RandomAccess _ _ => False
  | Hashed key eq hash uniq _ _ _ => uniq = true /\ eq (key v) (key w) = true
  end.
Definition conflict (cs : list (code V)) (v w : V) : Prop := exists c, In c cs /\ clash c v w.
(** the sequence after an operation without effect; hashed indices may be rehashed, see [h_same] *)
Definition untouched (c : code V) (val : node -> V) (l l' : list node) : Prop :=
  match c with
  | Ordered _ _ _ _ _ => l' = l
  | Sequenced _ _ _ => l' = l
  | RandomAccess _ _ => l' = l
  | Hashed key eq hash uniq _ _ _ => HashSeq.h_same key eq val l l'
  end.
(** the sequence after insertion of [x]: see [o_ins] for the place in an ordered index and
    [h_placed] for the place in a hashed one; positional indices put it at the end *)
Definition placed (c : code V) (val : node -> V) (hint : option node) (x : node) (l l' : list node) : Prop :=
  match c with
  | Ordered key lt uniq _ _ => o_ins key lt uniq hd val hint l x l'
  | Sequenced _ _ _ => l' = l ++ [x]
  | RandomAccess _ _ => l' = l ++ [x]
  | Hashed key eq hash uniq _ _ _ => HashSeq.h_placed key eq val x l l'
  end.
(** the sequence after the value of [x] changed: see [o_mov] and [h_moved] *)
Definition moved (c : code V) (val : node -> V) (x : node) (l l' : list node) : Prop :=
  match c with
  | Ordered key lt uniq _ _ => o_mov key lt uniq hd val x l l'
  | Sequenced _ _ _ => l' = l
  | RandomAccess _ _ => l' = l
  | Hashed key eq hash uniq _ _ _ => HashSeq.h_moved key eq val x l l'
  end.
(** no element has moved to another key in the order or equivalence of the index *)
Definition keeps (c : code V) (val val' : node -> V) (l : list node) : Prop :=
  match c with
  | Ordered _ _ _ _ _ => legal c val' l
  | Sequenced _ _ _ => True
  | RandomAccess _ _ => True
  | Hashed key eq hash uniq _ _ _ => forall y, In y l -> eq (key (val y)) (key (val' y)) = true
  end.

(** [R] holds for the sequences of every index before and after *)
Inductive each (R : code V -> list node -> list node -> Prop) :
  list (code V) -> list (list node) -> list (list node) -> Prop :=
| each_nil : each R [] [] []
| each_cons c cs l ls l' ls' : R c l l' -> each R cs ls ls' -> each R (c :: cs) (l :: ls) (l' :: ls').

Lemma each_impl (R R' : code V -> list node -> list node -> Prop) cs ls ls' :
  (forall c l l', R c l l' -> R' c l l') -> each R cs ls ls' -> each R' cs ls ls'.
Proof. intros I. induction 1; constructor; auto. Qed.

(** ** from the specification of the layers *)
Section World.
Variable AW : Type.
Variable wready : node -> AW -> Prop.
Variable wrem : node -> AW -> AW.
Notation spec := (spec hd wready wrem).

Lemma to_legal cs val (a : AV (spec cs)) : Forall (@code_ok V) cs -> aok (spec cs) val a ->
  Forall2 (fun c l => legal c val l) cs (els (spec cs) a).
Proof.
  induction cs as [|c cs IH]; cbn; [constructor|]. intros CO (A & B). inversion CO as [|? ? C1 C2]; subst.
  constructor; auto. destruct c; cbn in *; auto; [|eapply HashSeq.hok_legal; eauto].
  unfold sorted, rel in A. induction A as [|x l S1 I F]; constructor; auto.
  eapply Forall_impl; [|exact F]. intros y H. cbv beta in H. destruct uniq; auto. now apply Bool.negb_true_iff.
Qed.
Lemma of_keeps cs val val' (a : AV (spec cs)) : Forall (@code_ok V) cs -> aok (spec cs) val a ->
  Forall2 (fun c l => keeps c val val' l) cs (els (spec cs) a) -> aok (spec cs) val' a.
Proof.
  induction cs as [|c cs IH]; cbn; [auto|]. intros CO (A0 & B0) F. inversion CO as [|? ? C1 C2]; subst.
  inversion F as [|? ? ? ? A B]; subst. split; auto.
  destruct c; cbn in *; auto; [|destruct a as ((n, J), a); eapply HashOk.hok_equiv; eauto].
  clear A0 F. unfold sorted, rel. induction A as [|x l S1 I G]; constructor; auto.
  eapply Forall_impl; [|exact G]. intros y H. cbv beta in H. destruct uniq; auto. now apply Bool.negb_true_iff.
Qed.
Lemma to_clash cs v w : aconf (spec cs) v w <-> conflict cs v w.
Proof.
  induction cs as [|c cs IH]; cbn.
  - split; [easy|]. intros (? & [] & _).
  - rewrite IH. unfold conflict. split.
    + intros [H|(d & I & H)]; [exists c; split; [now left|]; now destruct c|exists d; split; [now right|auto]].
    + intros (d & [<-|I] & H); [left; now destruct c|right; exists d; auto].
Qed.
Lemma to_untouched cs val (a a' : AV (spec cs)) : Forall (@code_ok V) cs -> aok (spec cs) val a -> asame (spec cs) val a a' ->
  each (fun c => untouched c val) cs (els (spec cs) a) (els (spec cs) a').
Proof.
  induction cs as [|c cs IH]; cbn; [constructor|]. intros CO (A0 & B0) (A & B). inversion CO as [|? ? C1 C2]; subst.
  constructor; auto. destruct c; cbn in *; auto. eapply HashSeq.hsame_same; eauto.
Qed.
Lemma to_placed cs var val h (a : AV (spec cs)) x a' : Forall (@code_ok V) cs -> aok (spec cs) val a -> ains (spec cs) var val h a x a' ->
  each (fun c => placed c val h x) cs (els (spec cs) a) (els (spec cs) a').
Proof.
  induction cs as [|c cs IH]; cbn; [constructor|]. intros CO (A0 & B0) (A & B). inversion CO as [|? ? C1 C2]; subst.
  constructor; auto. destruct c; cbn in *; auto. eapply HashSeq.hins_placed; eauto.
Qed.
Lemma to_moved cs val x (a a' : AV (spec cs)) : Forall (@code_ok V) cs -> amov (spec cs) val x a a' ->
  each (fun c => moved c val x) cs (els (spec cs) a) (els (spec cs) a').
Proof.
  induction cs as [|c cs IH]; cbn; [constructor|]. intros CO (A & B). inversion CO as [|? ? C1 C2]; subst.
  constructor; auto. destruct c; cbn in *; auto. eapply HashSeq.hmov_moved; eauto.
Qed.
End World.
End Spec.
