(** C61: node handles. *)
From Coq Require Import Arith Bool List Lia.
From Verif Require Import Handle.
Import ListNotations.
Set Implicit Arguments.

(** ** specification *)
(** a handle that is alive has a node and the allocator it came with, or nothing.  [alive]: the nodes not deallocated *)
Record hspec := mkSp { content : nat -> option (option (nat * nat)); alive : nat -> option nat }.
Definition nodeless (c : option (option (nat * nat))) (f : nat -> option nat) : nat -> option nat :=
  match c with Some (Some (n, _)) => upd f n None | _ => f end.
Definition after (o : hop) (p : hspec) : hspec :=
  match o with
  | Make h => mkSp (upd (content p) h (Some None)) (alive p)
  | Extract h n a => mkSp (upd (content p) h (Some (Some (n, a)))) (upd (alive p) n (Some a))
  | Move h x => mkSp (upd (upd (content p) h (content p x)) x (Some None)) (alive p)
  | Assign h x => if h =? x then p else mkSp (upd (upd (content p) h (content p x)) x (Some None)) (nodeless (content p h) (alive p))
  | Swap h x => mkSp (upd (upd (content p) h (content p x)) x (content p h)) (alive p)
  | Release h => mkSp (upd (content p) h (Some None)) (alive p)
  | Destroy h => mkSp (upd (content p) h None) (nodeless (content p h) (alive p))
  end.
Section Traits.
Variables pocma pocs : bool.
(** two handles with nodes have equal allocators *)
Definition equal_allocators (p : hspec) (h x : nat) : Prop :=
  forall n a m b, content p h = Some (Some (n, a)) -> content p x = Some (Some (m, b)) -> a = b.
(** what the program has to see to: handles are alive when used and not when made, a node is extracted only if no handle has it, and the
    requirements on allocators of [container.node] *)
Definition may (o : hop) (p : hspec) : Prop :=
  match o with
  | Make h => content p h = None
  | Extract h n a => content p h = None /\ n <> 0 /\ (alive p n = None \/ alive p n = Some a) /\ (forall x b, content p x <> Some (Some (n, b)))
  | Move h x => content p h = None /\ content p x <> None
  | Assign h x => content p h <> None /\ content p x <> None /\ (pocma = true \/ equal_allocators p h x)
  | Swap h x => content p h <> None /\ content p x <> None /\ (pocs = true \/ equal_allocators p h x)
  | Release h | Destroy h => content p h <> None
  end.
Fixpoint correct (l : list hop) (p : hspec) : Prop := match l with [] => True | o :: l => may o p /\ correct l (after o p) end.
Definition after_all (l : list hop) (p : hspec) : hspec := fold_left (fun p o => after o p) l p.
Definition nothing : hspec := mkSp (fun _ => None) (fun _ => None).

(** the object which a handle is *)
Definition object (c : option (option (nat * nat))) : option hobj :=
  match c with None => None | Some None => Some (mkH 0 None) | Some (Some (n, a)) => Some (mkH n (Some a)) end.

(** ** proofs *)
Record R (s : hst) (p : hspec) : Prop := {
  r_obj : forall h, hs s h = object (content p h);
  r_nodes : forall n, nodes s n = alive p n;
  r_lost : lost s = 0 }.
Record W (p : hspec) : Prop := {
  w_node : forall h n a, content p h = Some (Some (n, a)) -> n <> 0 /\ alive p n = Some a;
  w_one : forall h x n a b, content p h = Some (Some (n, a)) -> content p x = Some (Some (n, b)) -> h = x }.

Lemma upd_eq : forall A (f : nat -> A) k v, upd f k v k = v.
Proof. intros; unfold upd; now rewrite Nat.eqb_refl. Qed.
Lemma upd_ne : forall A (f : nat -> A) k v j, j <> k -> upd f k v j = f j.
Proof. intros; unfold upd; destruct (Nat.eqb_spec j k); congruence. Qed.

Ltac eqb := repeat match goal with
  | H : context [?a =? ?b] |- _ => destruct (Nat.eqb_spec a b); subst
  | |- context [?a =? ?b] => destruct (Nat.eqb_spec a b); subst end.
Lemma W_after : forall o p, W p -> may o p -> W (after o p).
Proof.
  intros o p [N O] M; destruct o as [h|h n a|h x|h x|h x|h|h]; simpl in M |- *.
  - split; simpl; unfold upd; intros; eqb; try discriminate; eauto.
  - destruct M as (M1 & M2 & M3 & M4); split; simpl; unfold upd; intros; eqb; try discriminate; eauto.
    all: repeat match goal with H : Some (Some _) = Some (Some _) |- _ => inversion H; clear H; subst end; auto.
    all: try (exfalso; eapply M4; eauto; fail); try congruence.
  - destruct M as (M1 & M2); split; simpl; unfold upd; intros; eqb; try discriminate; eauto.
    all: match goal with
         | A : content _ ?a = Some (Some (?n, _)), B : content _ ?b = Some (Some (?n, _)), D : ?c <> ?d |- _ => exfalso; apply D; eapply O; eauto; fail
         | A : content _ ?a = Some (Some (?n, _)), B : content _ ?b = Some (Some (?n, _)), D : ?c <> ?d |- _ => exfalso; apply D; symmetry; eapply O; eauto; fail
         | _ => idtac end.
  - destruct M as (M1 & M2 & _). destruct (Nat.eqb_spec h x) as [->|D]; [split; auto|]. split; simpl.
    + intros k n a. unfold upd at 1 2; intros E. eqb; try discriminate.
      * destruct (N _ _ _ E) as [E1 E2]; split; auto. unfold nodeless; destruct (content p h) as [[[m b]|]|] eqn:Q; auto.
        rewrite upd_ne; auto. intros ->. apply D; eapply O; eauto.
      * destruct (N _ _ _ E) as [E1 E2]; split; auto. unfold nodeless; destruct (content p h) as [[[m b]|]|] eqn:Q; auto.
        rewrite upd_ne; auto. intros ->. match goal with H : k <> h |- _ => apply H end. eapply O; eauto.
    + unfold upd; intros k y n a b E F; eqb; try discriminate; auto.
      all: pose proof (O _ _ _ _ _ E F); congruence.
  - destruct M as (M1 & M2 & _); split; simpl.
    + unfold upd; intros k n a E; eqb; eauto.
    + unfold upd; intros k y n a b E F; eqb; eauto; try (exfalso; eauto; fail).
      all: match goal with A : content _ ?a = Some (Some (_, _)), B : content _ ?b = Some (Some (_, _)) |- _ => pose proof (O _ _ _ _ _ A B); congruence end.
  - split; simpl; unfold upd; intros; eqb; try discriminate; eauto.
  - split; simpl.
    + unfold upd at 1; intros k n a E; eqb; try discriminate. destruct (N _ _ _ E) as [E1 E2]; split; auto.
      unfold nodeless; destruct (content p h) as [[[m b]|]|] eqn:Q; auto. rewrite upd_ne; auto. intros ->.
      match goal with H : k <> h |- _ => apply H end. eapply O; eauto.
    + unfold upd; intros k y n a b E F; eqb; try discriminate; eauto.
Qed.

Ltac cases :=
  cbv beta delta [run1 make make_node move_construct destroy assign swap release fresh gone delete_node move_construct_allocator move_assign_allocator
    assign_allocator destroy_allocator construct_allocator allocator set_node node_of empty set_obj obj hbind hret].
Ltac crunch := cbn [hs nodes lost hnode space negb object content alive after].
Ltac looks :=
  repeat (progress (crunch; rewrite ?upd_eq, ?Nat.eqb_refl; repeat rewrite upd_ne by congruence;
    repeat match goal with H : hs _ _ = _ |- _ => rewrite H | H : nodes _ _ = _ |- _ => rewrite H | H : (_ =? _) = _ |- _ => rewrite H end)).
Ltac rel K Kn :=
  split; crunch; [intros k; specialize (K k); unfold upd; eqb; simpl; auto; try congruence
                 |intros k; specialize (Kn k); unfold nodeless, upd; eqb; simpl; auto; try congruence
                 |auto].

Lemma run1_ok : forall o s p, R s p -> W p -> may o p -> exists s', run1 pocma pocs o s = Some (tt, s') /\ R s' (after o p).
Proof.
  intros o s p [K Kn Kl] [N O] M; destruct o as [h|h n a|h x|h x|h x|h|h]; simpl in M.
  - assert (Hh := K h); rewrite M in Hh; cbn in Hh. eexists; split; [cases; looks; reflexivity|]. rel K Kn.
  - destruct M as (M1 & M2 & M3 & M4). assert (Hh := K h); rewrite M1 in Hh; cbn in Hh.
    eexists; split; [cases; looks; reflexivity|]. rel K Kn.
  - destruct M as (M1 & M2). assert (D : h <> x) by congruence. assert (D' : x <> h) by congruence.
    assert (Hh := K h); rewrite M1 in Hh; cbn in Hh. assert (Hx := K x). simpl after.
    destruct (content p x) as [[[n a]|]|] eqn:Ex; [| |congruence]; cbn in Hx.
    + assert (Z : (n =? 0) = false) by (apply Nat.eqb_neq; apply (N _ _ _ Ex)).
      eexists; split; [cases; looks; reflexivity|]. rel K Kn.
    + eexists; split; [cases; looks; reflexivity|]. rel K Kn.
  - destruct M as (M1 & M2 & M3). simpl after. destruct (Nat.eqb_spec h x) as [->|D].
    { exists s; split; [cases; looks; reflexivity|split; auto]. }
    assert (D' : x <> h) by congruence. assert (Df : (h =? x) = false) by now apply Nat.eqb_neq.
    assert (Hh := K h). assert (Hx := K x).
    destruct (content p h) as [[[n a]|]|] eqn:Eh; [| |congruence]; destruct (content p x) as [[[m b]|]|] eqn:Ex; try congruence; cbn in Hh, Hx.
    + destruct (N _ _ _ Eh) as (Zn & An), (N _ _ _ Ex) as (Zm & Am). rewrite <- Kn in An, Am.
      assert (Z : (n =? 0) = false) by now apply Nat.eqb_neq. assert (Z' : (m =? 0) = false) by now apply Nat.eqb_neq.
      destruct pocma eqn:Pm.
      * eexists; split; [cases; looks; reflexivity|]. rel K Kn.
      * destruct M3 as [M3|M3]; [discriminate|]. assert (a = b) as <- by (eapply M3; eauto).
        eexists; split; [cases; looks; reflexivity|]. rel K Kn.
    + destruct (N _ _ _ Eh) as (Zn & An). rewrite <- Kn in An. assert (Z : (n =? 0) = false) by now apply Nat.eqb_neq.
      eexists; split; [cases; looks; reflexivity|]. rel K Kn.
    + destruct (N _ _ _ Ex) as (Zm & Am). assert (Z' : (m =? 0) = false) by now apply Nat.eqb_neq.
      eexists; split; [cases; looks; reflexivity|]. rel K Kn.
    + eexists; split; [cases; looks; reflexivity|]. rel K Kn.
  - destruct M as (M1 & M2 & M3). simpl after. destruct (Nat.eq_dec h x) as [->|D].
    { assert (Hx := K x). destruct (content p x) as [[[m b]|]|] eqn:Ex; try congruence; cbn in Hx.
      - assert (Z : (m =? 0) = false) by (apply Nat.eqb_neq; apply (N _ _ _ Ex)).
        destruct pocs; (eexists; split; [cases; looks; reflexivity|]; rel K Kn).
      - eexists; split; [cases; looks; reflexivity|]; rel K Kn. }
    assert (D' : x <> h) by congruence. assert (Hh := K h). assert (Hx := K x).
    destruct (content p h) as [[[n a]|]|] eqn:Eh; [| |congruence]; destruct (content p x) as [[[m b]|]|] eqn:Ex; try congruence; cbn in Hh, Hx.
    + destruct (N _ _ _ Eh) as (Zn & An), (N _ _ _ Ex) as (Zm & Am).
      assert (Z : (n =? 0) = false) by now apply Nat.eqb_neq. assert (Z' : (m =? 0) = false) by now apply Nat.eqb_neq.
      destruct pocs eqn:Pm.
      * eexists; split; [cases; looks; reflexivity|]. rel K Kn.
      * destruct M3 as [M3|M3]; [discriminate|]. assert (a = b) as <- by (eapply M3; eauto).
        eexists; split; [cases; looks; reflexivity|]. rel K Kn.
    + destruct (N _ _ _ Eh) as (Zn & An). assert (Z : (n =? 0) = false) by now apply Nat.eqb_neq.
      eexists; split; [cases; looks; reflexivity|]. rel K Kn.
    + destruct (N _ _ _ Ex) as (Zm & Am). assert (Z' : (m =? 0) = false) by now apply Nat.eqb_neq.
      eexists; split; [cases; looks; reflexivity|]. rel K Kn.
    + eexists; split; [cases; looks; reflexivity|]. rel K Kn.
  - assert (Hh := K h). destruct (content p h) as [[[n a]|]|] eqn:Eh; [| |congruence]; cbn in Hh.
    + destruct (N _ _ _ Eh) as (Zn & An). assert (Z : (n =? 0) = false) by now apply Nat.eqb_neq.
      eexists; split; [cases; looks; reflexivity|]. rel K Kn.
    + eexists; split; [cases; looks; reflexivity|]. rel K Kn.
  - assert (Hh := K h). simpl after. destruct (content p h) as [[[n a]|]|] eqn:Eh; [| |congruence]; cbn in Hh.
    + destruct (N _ _ _ Eh) as (Zn & An). rewrite <- Kn in An. assert (Z : (n =? 0) = false) by now apply Nat.eqb_neq.
      eexists; split; [cases; looks; reflexivity|]. rel K Kn.
    + eexists; split; [cases; looks; reflexivity|]. rel K Kn.
Qed.
Lemma run_ok : forall l s p, R s p -> W p -> correct l p ->
  exists s', run pocma pocs l s = Some (tt, s') /\ R s' (after_all l p) /\ W (after_all l p).
Proof.
  induction l as [|o l IH]; intros s p Hr Hw C; simpl; [exists s; auto|]. destruct C as [M C].
  destruct (run1_ok o Hr Hw M) as (s1 & E1 & R1). destruct (IH s1 _ R1 (W_after o Hw M) C) as (s2 & E2 & R2 & W2).
  exists s2; unfold hbind; rewrite E1; auto.
Qed.
Lemma R_start : R start nothing.
Proof. split; auto. Qed.
Lemma W_nothing : W nothing.
Proof. split; discriminate. Qed.

(** No correct program with node handles comes to something undefined: an allocator object is used or destroyed when there is none, a
    node is deallocated twice or by another allocator.  Each handle has what the specification says and an allocator object
    in its storage if and only if it has a node; no allocator object is lost. *)
Theorem C61_handles : forall l, correct l nothing ->
  exists s, run pocma pocs l start = Some (tt, s) /\ (forall h, hs s h = object (content (after_all l nothing) h)) /\
    (forall n, nodes s n = alive (after_all l nothing) n) /\ lost s = 0.
Proof. intros l C; destruct (run_ok l R_start W_nothing C) as (s & E & [A B D] & _); eauto 6. Qed.
(** A node is in one handle at most, with an allocator equal to that which it was allocated by. *)
Theorem C61_one : forall l s, correct l nothing -> run pocma pocs l start = Some (tt, s) ->
  (forall h o, hs s h = Some o -> hnode o <> 0 -> exists a, space o = Some a /\ nodes s (hnode o) = Some a) /\
  (forall h o, hs s h = Some o -> hnode o = 0 -> space o = None) /\
  (forall h x o q, hs s h = Some o -> hs s x = Some q -> hnode o = hnode q -> hnode o <> 0 -> h = x).
Proof.
  intros l s C E; destruct (run_ok l R_start W_nothing C) as (s' & E' & [A B _] & [N O]). rewrite E in E'; inversion E'; subst s'.
  repeat split.
  - intros h o Ho Z; rewrite A in Ho; destruct (content _ h) as [[[n a]|]|] eqn:Q; inversion Ho; subst; simpl in *; [|congruence].
    exists a; split; auto. rewrite B; apply (N _ _ _ Q).
  - intros h o Ho Z; rewrite A in Ho; destruct (content _ h) as [[[n a]|]|] eqn:Q; inversion Ho; subst; simpl in *; auto.
    now destruct (N _ _ _ Q).
  - intros h x o q Ho Hq Eq Z; rewrite A in Ho, Hq.
    destruct (content _ h) as [[[n a]|]|] eqn:Q; inversion Ho; subst; simpl in *; [|congruence].
    destruct (content _ x) as [[[m b]|]|] eqn:Q'; inversion Hq; subst; simpl in *; [|congruence]. subst. eapply O; eauto.
Qed.

(** the nodes which handles gave to containers *)
Definition given1 (o : hop) (p : hspec) : list nat :=
  match o with Release h => match content p h with Some (Some (n, _)) => [n] | _ => [] end | _ => [] end.
Fixpoint given (l : list hop) (p : hspec) : list nat := match l with [] => [] | o :: l => given1 o p ++ given l (after o p) end.
Lemma kept : forall o p n a G, W p -> may o p -> (forall n a, alive p n = Some a -> (exists h, content p h = Some (Some (n, a))) \/ In n G) ->
  alive (after o p) n = Some a -> (exists h, content (after o p) h = Some (Some (n, a))) \/ In n (given1 o p) \/ In n G.
Proof.
  intros o p n a G Hw M P A; destruct o as [h|h m b|h x|h x|h x|h|h]; cbn [after given1 content alive] in *.
  - destruct (P _ _ A) as [[k K]|K]; auto. left; exists k; unfold upd; eqb; congruence.
  - destruct M as (M1 & _ & _ & M4). unfold upd in A; destruct (Nat.eqb_spec n m) as [->|D].
    + injection A as <-. left; exists h; now rewrite upd_eq.
    + destruct (P _ _ A) as [[k K]|K]; auto. left; exists k; unfold upd; eqb; congruence.
  - destruct M as (M1 & M2). destruct (P _ _ A) as [[k K]|K]; auto. left. destruct (Nat.eq_dec k x) as [->|D].
    + exists h. rewrite upd_ne, upd_eq; congruence.
    + exists k. rewrite upd_ne, upd_ne; congruence.
  - destruct M as (M1 & M2 & _). destruct (Nat.eqb_spec h x) as [->|D]; [destruct (P _ _ A); auto|]. cbn [content alive] in *.
    assert (A' : alive p n = Some a /\ forall b, content p h <> Some (Some (n, b))).
    { unfold nodeless in A; destruct (content p h) as [[[m b]|]|] eqn:Q; try (split; [auto|discriminate]).
      unfold upd in A; destruct (Nat.eqb_spec n m); [discriminate|]. split; auto; congruence. }
    destruct A' as [A' NH]; destruct (P _ _ A') as [[k K]|K]; auto. left. destruct (Nat.eq_dec k x) as [->|D1].
    + exists h. rewrite upd_ne, upd_eq; congruence.
    + destruct (Nat.eq_dec k h) as [->|D2]; [now destruct (NH a)|]. exists k. rewrite upd_ne, upd_ne; congruence.
  - destruct (P _ _ A) as [[k K]|K]; auto. left. destruct (Nat.eq_dec k h) as [->|D1].
    + exists x. now rewrite upd_eq.
    + destruct (Nat.eq_dec k x) as [->|D2]; [exists h; rewrite upd_ne, upd_eq by auto; auto|]. exists k. rewrite upd_ne, upd_ne; congruence.
  - destruct (P _ _ A) as [[k K]|K]; auto. destruct (Nat.eq_dec k h) as [->|D1].
    + rewrite K; simpl; auto.
    + left; exists k; now rewrite upd_ne.
  - assert (A' : alive p n = Some a /\ forall b, content p h <> Some (Some (n, b))).
    { unfold nodeless in A; destruct (content p h) as [[[m b]|]|] eqn:Q; try (split; [auto|discriminate]).
      unfold upd in A; destruct (Nat.eqb_spec n m); [discriminate|]. split; auto; congruence. }
    destruct A' as [A' NH]; destruct (P _ _ A') as [[k K]|K]; auto. left; exists k. destruct (Nat.eq_dec k h) as [->|D1]; [now destruct (NH a)|].
    now rewrite upd_ne.
Qed.
Lemma kept_all : forall l p G, W p -> correct l p -> (forall n a, alive p n = Some a -> (exists h, content p h = Some (Some (n, a))) \/ In n G) ->
  forall n a, alive (after_all l p) n = Some a -> (exists h, content (after_all l p) h = Some (Some (n, a))) \/ In n (given l p) \/ In n G.
Proof.
  induction l as [|o l IH]; intros p G Hw C P n a A; simpl in *; [destruct (P n a A); auto|]. destruct C as [M C].
  destruct (IH (after o p) (given1 o p ++ G) (W_after o Hw M) C) with (n := n) (a := a) as [K|[K|K]]; auto.
  - intros n' a' A'. destruct (@kept o p n' a' G Hw M P A') as [K|[K|K]]; auto; right; apply in_or_app; auto.
  - right; left; apply in_or_app; auto.
  - apply in_app_or in K as [K|K]; auto. right; left; apply in_or_app; auto.
Qed.
(** No node is lost: one that is allocated is in a handle, or was given to a container. *)
Theorem C61_no_leak : forall l s n a, correct l nothing -> run pocma pocs l start = Some (tt, s) -> nodes s n = Some a ->
  (exists h, hs s h = Some (mkH n (Some a))) \/ In n (given l nothing).
Proof.
  intros l s n a C E A; destruct (run_ok l R_start W_nothing C) as (s' & E' & [Ao An _] & _). rewrite E in E'; inversion E'; subst s'.
  rewrite An in A. destruct (@kept_all l nothing [] W_nothing C) with (n := n) (a := a) as [[h K]|[K|[]]]; auto; [discriminate|].
  left; exists h; rewrite Ao, K; reflexivity.
Qed.
End Traits.

(** ** cases *)
(** nodes 101, 102 and 103, of allocators 7 and 8 *)
Definition handles : list hop :=
  [Extract 1 101 7; Extract 2 102 8; Make 3; Swap 1 3; Move 4 2; Assign 4 3; Assign 2 4; Swap 2 2; Assign 2 2; Extract 5 103 8; Swap 2 5; Release 5; Destroy 3; Destroy 1].
Example handles_correct : correct true true handles nothing.
Proof.
  simpl; unfold equal_allocators; simpl. repeat split; auto; try discriminate; unfold upd; simpl.
  all: intros; repeat match goal with |- context [?a =? ?b] => destruct (a =? b) end; try discriminate.
Qed.
Example handles_run : match run true true handles start with
  Some (_, s) => (hs s 2, hs s 5, hs s 4, hs s 1, nodes s 101, nodes s 102, nodes s 103, lost s) | None => (None, None, None, None, None, None, None, 1) end =
  (Some (mkH 103 (Some 8)), Some (mkH 0 None), Some (mkH 0 None), None, Some 7, None, Some 8, 0) /\ given handles nothing = [101].
Proof. vm_compute; auto. Qed.
(** without propagation, assignment between handles with different allocators leads to deallocation by the wrong one *)
Example handles_unequal : let l := [Extract 1 101 7; Extract 2 102 8; Assign 1 2; Destroy 1] in
  run false true l start = None /\ run true false l start <> None /\ ~ correct false true l nothing.
Proof.
  repeat split; try (vm_compute; congruence). intros C; simpl in C. destruct C as (_ & _ & (_ & _ & [C|C]) & _); [discriminate|].
  specialize (C 101 7 102 8 eq_refl eq_refl). discriminate.
Qed.

Print Assumptions C61_handles.
Print Assumptions C61_one.
Print Assumptions C61_no_leak.
