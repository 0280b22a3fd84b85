(** Mathematical trees and contexts used to describe the memory of ordered indices. *)
From Verif Require Import Prelude OrdModel.

(** colour, stored subtree count, left, node, right *)
Inductive tree := E | T (c : color) (n : nat) (l : tree) (x : node) (r : tree).

Fixpoint inorder (t : tree) : list node :=
  match t with E => [] | T _ _ l x r => inorder l ++ x :: inorder r end.

Fixpoint size (t : tree) : nat :=
  match t with E => 0 | T _ _ l _ r => size l + size r + 1 end.

Definition rootp (t : tree) : node := match t with E => null | T _ _ _ x _ => x end.
Definition colr (t : tree) : color := match t with E => Black | T c _ _ _ _ => c end.
Definition cnt (t : tree) : nat := match t with E => 0 | T _ n _ _ _ => n end.

(** all paths carry [n] black nodes *)
Inductive bh : tree -> nat -> Prop :=
| bh_E : bh E 0
| bh_R n l x r k : bh l k -> bh r k -> bh (T Red n l x r) k
| bh_B n l x r k : bh l k -> bh r k -> bh (T Black n l x r) (S k).

(** no red node has a red child *)
Fixpoint norr (t : tree) : Prop :=
  match t with
  | E => True
  | T c _ l _ r => norr l /\ norr r /\ (c = Red -> colr l = Black /\ colr r = Black)
  end.

(** every stored count is the size of the subtree *)
Fixpoint sized (t : tree) : Prop :=
  match t with E => True | T _ n l _ r => n = size l + size r + 1 /\ sized l /\ sized r end.

Lemma size_inorder t : size t = length (inorder t).
Proof. induction t; cbn; auto. rewrite app_length. cbn. lia. Qed.

(** ** Contexts *)
Inductive ctx :=
| Top
| CL (c : color) (n : nat) (x : node) (r : tree) (k : ctx)
| CR (c : color) (n : nat) (l : tree) (x : node) (k : ctx).

Fixpoint plug (k : ctx) (t : tree) : tree :=
  match k with
  | Top => t
  | CL c n x r k => plug k (T c n t x r)
  | CR c n l x k => plug k (T c n l x t)
  end.

(** concatenation: inner context first *)
Fixpoint kapp (k k' : ctx) : ctx :=
  match k with
  | Top => k'
  | CL c n x r k => CL c n x r (kapp k k')
  | CR c n l x k => CR c n l x (kapp k k')
  end.
Lemma plug_kapp k k' t : plug (kapp k k') t = plug k' (plug k t).
Proof. revert t. induction k; cbn; auto. Qed.

Fixpoint lefts (k : ctx) : list node :=
  match k with
  | Top => []
  | CL _ _ _ _ k => lefts k
  | CR _ _ l x k => lefts k ++ inorder l ++ [x]
  end.
Fixpoint rights (k : ctx) : list node :=
  match k with
  | Top => []
  | CL _ _ x r k => x :: inorder r ++ rights k
  | CR _ _ _ _ k => rights k
  end.
Lemma inorder_plug k t : inorder (plug k t) = lefts k ++ inorder t ++ rights k.
Proof.
  revert t. induction k as [|c n x r k IH|c n l x k IH]; intros t; cbn.
  - now rewrite app_nil_r.
  - rewrite IH. cbn. now rewrite <- !app_assoc.
  - rewrite IH. cbn. now rewrite <- !app_assoc.
Qed.

Fixpoint klen (k : ctx) : nat :=
  match k with Top => 0 | CL _ _ _ _ k => S (klen k) | CR _ _ _ _ k => S (klen k) end.

(** root of the plugged tree when the hole's root is [q] *)
Fixpoint kroot (k : ctx) (q : node) : node :=
  match k with
  | Top => q
  | CL _ _ x _ k => kroot k x
  | CR _ _ _ x k => kroot k x
  end.
Lemma rootp_plug k t : rootp (plug k t) = kroot k (rootp t).
Proof. revert t. induction k; cbn; intros; auto; now rewrite IHk. Qed.

Fixpoint ksize (k : ctx) (n : nat) : nat :=
  match k with
  | Top => n
  | CL _ _ _ r k => ksize k (n + size r + 1)
  | CR _ _ l _ k => ksize k (size l + n + 1)
  end.

(** properties of contexts *)
Definition kcol (k : ctx) : color :=
  match k with Top => Black | CL c _ _ _ _ => c | CR c _ _ _ _ => c end.

Fixpoint kbh (k : ctx) (n m : nat) : Prop :=
  match k with
  | Top => n = m
  | CL c _ _ s k | CR c _ s _ k => bh s n /\ kbh k (match c with Red => n | Black => S n end) m
  end.
Lemma bh_plug k : forall t m, bh (plug k t) m <-> exists n, bh t n /\ kbh k n m.
Proof.
  induction k as [|c n x r k IH|c n l x k IH]; intros t m; cbn.
  - split; [eauto|]. now intros (? & ? & ->).
  - rewrite IH. split.
    + intros (j & B & K). inversion B; subst; eexists; split; eauto.
    + intros (j & B & B' & K). destruct c; (eexists; split; [|exact K]; constructor; auto).
  - rewrite IH. split.
    + intros (j & B & K). inversion B; subst; eexists; split; eauto.
    + intros (j & B & B' & K). destruct c; (eexists; split; [|exact K]; constructor; auto).
Qed.

(** no red-red inside the context *)
Fixpoint krr (k : ctx) : Prop :=
  match k with
  | Top => True
  | CL c _ _ s k | CR c _ s _ k =>
      norr s /\ krr k /\ (c = Red -> colr s = Black) /\ (kcol k = Red -> c = Black)
  end.
Lemma norr_plug k : forall t,
  norr (plug k t) <-> norr t /\ krr k /\ (kcol k = Red -> colr t = Black).
Proof.
  induction k as [|c n x r k IH|c n l x k IH]; intros t; cbn.
  - intuition discriminate.
  - rewrite IH. cbn. tauto.
  - rewrite IH. cbn. tauto.
Qed.

Fixpoint ksized (k : ctx) (n : nat) : Prop :=
  match k with
  | Top => True
  | CL _ m _ s k | CR _ m s _ k => m = n + size s + 1 /\ sized s /\ ksized k (n + size s + 1)
  end.
Lemma sized_plug k : forall t, sized (plug k t) <-> sized t /\ ksized k (size t).
Proof.
  induction k as [|c n x r k IH|c n l x k IH]; intros t; cbn.
  - tauto.
  - rewrite IH. cbn. tauto.
  - rewrite IH. cbn. rewrite (Nat.add_comm (size l)). tauto.
Qed.
Lemma size_plug k : forall t t', size t = size t' -> size (plug k t) = size (plug k t').
Proof. induction k; cbn; intros; auto; apply IHk; cbn; lia. Qed.

(** the root of a context is black *)
Fixpoint kblack (k : ctx) : Prop :=
  match k with
  | Top => True
  | CL c _ _ _ Top | CR c _ _ _ Top => c = Black
  | CL _ _ _ _ k | CR _ _ _ _ k => kblack k
  end.
Lemma colr_plug k t : k <> Top -> (colr (plug k t) = Black <-> kblack k).
Proof.
  revert t. induction k as [|c n x r k IH|c n l x k IH]; intros t H; [easy| |];
    (destruct k; [cbn; tauto| |]); cbn [plug]; cbn [plug] in IH; rewrite IH by easy; cbn; tauto.
Qed.

(** contexts with all stored counts decremented / incremented *)
Fixpoint kdec (rk : bool) (k : ctx) : ctx :=
  match k with
  | Top => Top
  | CL c n x r k => CL c (if rk then n - 1 else n) x r (kdec rk k)
  | CR c n l x k => CR c (if rk then n - 1 else n) l x (kdec rk k)
  end.
Fixpoint kinc (rk : bool) (k : ctx) : ctx :=
  match k with
  | Top => Top
  | CL c n x r k => CL c (if rk then S n else n) x r (kinc rk k)
  | CR c n l x k => CR c (if rk then S n else n) l x (kinc rk k)
  end.
Section Counts.
Variable rk : bool.
Lemma kdec_lefts k : lefts (kdec rk k) = lefts k.
Proof. induction k; cbn; congruence. Qed.
Lemma kdec_rights k : rights (kdec rk k) = rights k.
Proof. induction k; cbn; congruence. Qed.
Lemma kdec_kroot k q : kroot (kdec rk k) q = kroot k q.
Proof. revert q; induction k; cbn; auto. Qed.
Lemma kdec_kcol k : kcol (kdec rk k) = kcol k.
Proof. destruct k; auto. Qed.
Lemma kdec_kbh k : forall n m, kbh (kdec rk k) n m <-> kbh k n m.
Proof. induction k; cbn; intros; try rewrite IHk; tauto. Qed.
Lemma kdec_krr k : krr (kdec rk k) <-> krr k.
Proof. induction k; cbn; rewrite ?kdec_kcol, ?IHk; tauto. Qed.
Lemma kdec_kblack k : kblack (kdec rk k) <-> kblack k.
Proof. induction k as [|c n x r k IH|c n l x k IH]; cbn; try tauto; destruct k; cbn in *; tauto. Qed.
Lemma kdec_klen k : klen (kdec rk k) = klen k.
Proof. induction k; cbn; congruence. Qed.
Lemma kdec_ksized k n : rk = true -> ksized k (S n) -> ksized (kdec rk k) n.
Proof.
  intros ->. revert n. induction k as [|c m x r k IH|c m l x k IH]; cbn; auto;
    intros n (-> & S1 & K); splits; auto; try lia; apply IH;
    match goal with |- ksized _ ?a => match type of K with ksized _ ?b =>
      replace a with b by lia end end; auto.
Qed.
Lemma kdec_kapp k k' : kdec rk (kapp k k') = kapp (kdec rk k) (kdec rk k').
Proof. induction k; cbn; congruence. Qed.
Lemma kinc_lefts k : lefts (kinc rk k) = lefts k.
Proof. induction k; cbn; congruence. Qed.
Lemma kinc_rights k : rights (kinc rk k) = rights k.
Proof. induction k; cbn; congruence. Qed.
Lemma kinc_kroot k q : kroot (kinc rk k) q = kroot k q.
Proof. revert q; induction k; cbn; auto. Qed.
Lemma kinc_kcol k : kcol (kinc rk k) = kcol k.
Proof. destruct k; auto. Qed.
Lemma kinc_kbh k : forall n m, kbh (kinc rk k) n m <-> kbh k n m.
Proof. induction k; cbn; intros; try rewrite IHk; tauto. Qed.
Lemma kinc_krr k : krr (kinc rk k) <-> krr k.
Proof. induction k; cbn; rewrite ?kinc_kcol, ?IHk; tauto. Qed.
Lemma kinc_kblack k : kblack (kinc rk k) <-> kblack k.
Proof. induction k as [|c n x r k IH|c n l x k IH]; cbn; try tauto; destruct k; cbn in *; tauto. Qed.
Lemma kinc_klen k : klen (kinc rk k) = klen k.
Proof. induction k; cbn; congruence. Qed.
Lemma kinc_ksized k n : rk = true -> ksized k n -> ksized (kinc rk k) (S n).
Proof.
  intros ->. revert n. induction k as [|c m x r k IH|c m l x k IH]; cbn; auto;
    intros n (-> & S1 & K); splits; auto; try lia;
    match goal with |- ksized _ ?a => match type of K with ksized _ ?b =>
      replace a with (S b) by lia end end; auto.
Qed.
End Counts.

Lemma lefts_kapp k k' : lefts (kapp k k') = lefts k' ++ lefts k.
Proof. induction k; cbn; rewrite ?app_nil_r, ?IHk, <- ?app_assoc; auto. Qed.
Lemma rights_kapp k k' : rights (kapp k k') = rights k ++ rights k'.
Proof. induction k; cbn; rewrite ?IHk, <- ?app_assoc; auto. Qed.
Lemma klen_kapp k k' : klen (kapp k k') = klen k + klen k'.
Proof. induction k; cbn; auto. Qed.

(** the valid trees: red-black, black root, exact counts when ranked *)
Definition rbt (rk : bool) (t : tree) : Prop :=
  norr t /\ (exists m, bh t m) /\ colr t = Black /\ (rk = true -> sized t).

(** depth of a context is bounded by the number of nodes *)
Lemma klen_size k t : klen k + size t <= size (plug k t).
Proof.
  revert t. induction k; cbn; intros; auto; (etransitivity; [|apply IHk]); cbn; lia.
Qed.

(** every element of the sequence is the root of some subtree in some context *)
Lemma focus t x : In x (inorder t) -> exists k c n a b, t = plug k (T c n a x b).
Proof.
  intros H. cut (exists k c n a b, t = plug k (T c n a x b)); [eauto|].
  induction t as [|c n l IHl y r IHr]; [easy|].
  cbn in H. rewrite in_app_iff in H. destruct H as [H|[->|H]].
  - destruct (IHl H) as (k & c' & n' & a & b & ->).
    exists (kapp k (CL c n y r Top)), c', n', a, b. now rewrite plug_kapp.
  - now exists Top, c, n, l, r.
  - destruct (IHr H) as (k & c' & n' & a & b & ->).
    exists (kapp k (CR c n l y Top)), c', n', a, b. now rewrite plug_kapp.
Qed.

(** leftmost path *)
Lemma min_focus t : t <> E ->
  exists k c n x r, t = plug k (T c n E x r) /\ lefts k = [] /\
                    hd_error (inorder t) = Some x /\ inorder t = x :: inorder r ++ rights k.
Proof.
  induction t as [|c n l IHl y r IHr]; [easy|]. intros _.
  destruct l as [|c1 n1 l1 y1 r1].
  - exists Top, c, n, y, r. cbn. rewrite app_nil_r. auto.
  - destruct IHl as (k & c' & n' & x & r' & E1 & L & Hd & I); [easy|].
    exists (kapp k (CL c n y r Top)), c', n', x, r'.
    rewrite plug_kapp, lefts_kapp, rights_kapp, <- E1, L. cbn [plug lefts rights app].
    splits; auto.
    + cbn [inorder] in *. destruct (inorder l1); cbn in *; auto.
    + cbn [inorder] in *. rewrite I. cbn. now rewrite <- !app_assoc, app_nil_r.
Qed.

(** paths all to the left *)
Fixpoint left_path (k : ctx) : Prop :=
  match k with Top => True | CL _ _ _ _ k => left_path k | CR _ _ _ _ _ => False end.
Fixpoint right_path (k : ctx) : Prop :=
  match k with Top => True | CR _ _ _ _ k => right_path k | CL _ _ _ _ _ => False end.

Lemma left_path_lefts k : left_path k -> lefts k = [].
Proof. induction k; cbn; auto; easy. Qed.
Lemma right_path_rights k : right_path k -> rights k = [].
Proof. induction k; cbn; auto; easy. Qed.
Lemma left_path_kapp k k' : left_path k -> left_path k' -> left_path (kapp k k').
Proof. induction k; cbn; auto. Qed.
Lemma right_path_kapp k k' : right_path k -> right_path k' -> right_path (kapp k k').
Proof. induction k; cbn; auto. Qed.
Lemma lefts_nil k : lefts k = [] -> left_path k.
Proof.
  induction k as [|c n x r k IH|c n l x k IH]; cbn; auto.
  intros H. apply (f_equal (@length _)) in H. rewrite !app_length in H. cbn in H. lia.
Qed.
Lemma rights_nil k : rights k = [] -> right_path k.
Proof. induction k as [|c n x r k IH|c n l x k IH]; cbn; auto. easy. Qed.

Lemma max_focus t : t <> E ->
  exists k c n l x, t = plug k (T c n l x E) /\ right_path k.
Proof.
  induction t as [|c n l IHl y r IHr]; [easy|]. intros _.
  destruct r as [|c1 n1 l1 y1 r1].
  - now exists Top, c, n, l, y.
  - destruct IHr as (k & c' & n' & l' & x & E1 & L); [easy|].
    exists (kapp k (CR c n l y Top)), c', n', l', x.
    rewrite plug_kapp, <- E1. split; auto. now apply right_path_kapp.
Qed.
