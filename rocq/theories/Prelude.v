(** Prelude: outcomes of C++ code, throwing user calls, heaps as functions,
    and list lemmas shared by all the models. *)
From Coq Require Export List Arith Lia Bool PeanoNat Permutation Sorted.
Export ListNotations.
Set Implicit Arguments.

(** Addresses of nodes. The null pointer is 0; all other numbers are possible
    addresses of a node.  (models: the [pointer] types of every *_node_impl) *)
Definition node := nat.
Definition null : node := 0.

(** ** Outcomes

    [Ret a s]: normal return of [a] in state [s].
    [Exn s]:   an exception thrown by user code is propagating, state [s].
    [UB]:      undefined behaviour (null/dangling dereference, out of bounds
               access) or a loop that did not terminate within its fuel. *)
Inductive out (S A : Type) : Type :=
| Ret (a : A) (s : S)
| Exn (s : S)
| UB.
Arguments Ret {S A} a s.
Arguments Exn {S A} s.
Arguments UB {S A}.

Definition M (S A : Type) : Type := S -> out S A.

Definition ret {S A} (a : A) : M S A := fun s => Ret a s.
Definition bind {S A B} (m : M S A) (k : A -> M S B) : M S B :=
  fun s => match m s with
           | Ret a s' => k a s'
           | Exn s' => Exn s'
           | UB => UB
           end.
Definition ub {S A} : M S A := fun _ => UB.
Definition throw {S A} : M S A := fun s => Exn s.
(** BOOST_TRY{ m } BOOST_CATCH(...){ h } : [h] ends with [throw] iff the
    C++ handler ends with BOOST_RETHROW. *)
Definition try_catch {S A} (m : M S A) (h : M S A) : M S A :=
  fun s => match m s with
           | Exn s' => h s'
           | o => o
           end.

Declare Scope mon_scope.
Delimit Scope mon_scope with mon.
Notation "x <- m ;; k" := (bind m (fun x => k))
  (at level 61, m at next level, right associativity) : mon_scope.
Notation "m ;;; k" := (bind m (fun _ => k))
  (at level 61, right associativity) : mon_scope.
Open Scope mon_scope.

(** ** Function update *)
Definition upd {A} (f : node -> A) (x : node) (v : A) : node -> A :=
  fun y => if y =? x then v else f y.

Lemma upd_eq {A} (f : node -> A) x v : upd f x v x = v.
Proof. unfold upd. now rewrite Nat.eqb_refl. Qed.

Lemma upd_neq {A} (f : node -> A) x v y : y <> x -> upd f x v y = f y.
Proof. intros H. unfold upd. destruct (Nat.eqb_spec y x); congruence. Qed.

(** ** Adjacent pairs of a list *)
Fixpoint adj {A} (R : A -> A -> Prop) (l : list A) : Prop :=
  match l with
  | a :: (b :: _) as l' => R a b /\ adj R l'
  | _ => True
  end.

Lemma adj_cons2 {A} (R : A -> A -> Prop) a b l :
  adj R (a :: b :: l) <-> R a b /\ adj R (b :: l).
Proof. reflexivity. Qed.

Lemma adj_app {A} (R : A -> A -> Prop) l1 x l2 :
  adj R (l1 ++ x :: l2) <-> adj R (l1 ++ [x]) /\ adj R (x :: l2).
Proof.
  induction l1 as [|a l1 IH]; [cbn; tauto|].
  destruct l1 as [|b l1]; cbn [app] in *.
  - rewrite !adj_cons2. cbn. tauto.
  - rewrite !adj_cons2, IH. tauto.
Qed.

Lemma adj_mono {A} (R R' : A -> A -> Prop) l :
  adj R l ->
  (forall l1 a b l2, l = l1 ++ a :: b :: l2 -> R a b -> R' a b) ->
  adj R' l.
Proof.
  induction l as [|a l IH]; [easy|].
  destruct l as [|b l]; [easy|].
  rewrite !adj_cons2. intros [H1 H2] H. split.
  - apply (H [] a b l); auto.
  - apply IH; auto. intros l1 a' b' l2 E. apply (H (a :: l1) a' b' l2).
    now rewrite E.
Qed.

Lemma NoDup_app_iff {A} (l1 l2 : list A) :
  NoDup (l1 ++ l2) <-> NoDup l1 /\ NoDup l2 /\ (forall x, In x l1 -> ~ In x l2).
Proof.
  induction l1 as [|a l1 IH]; cbn.
  - split; [intros H; repeat split; auto; constructor | tauto].
  - rewrite !NoDup_cons_iff, IH, in_app_iff. split.
    + intros (H1 & H2 & H3 & H4). repeat split; auto.
      intros x [<-|Hx]; auto.
    + intros ((H1 & H2) & H3 & H4). repeat split; auto.
      intros [H|H]; [auto|]. apply (H4 a); auto.
Qed.

Lemma NoDup_perm {A} (l l' : list A) : Permutation l l' -> NoDup l -> NoDup l'.
Proof. intros P H. eapply Permutation_NoDup; eauto. Qed.

(** ** Total correctness of a computation

    [wp m Q E s]: [m] run from [s] has no undefined behaviour, ends normally
    in a state satisfying [Q] or by an exception in a state satisfying [E]. *)
Definition wp {S A} (m : M S A) (Q : A -> S -> Prop) (E : S -> Prop) (s : S) : Prop :=
  match m s with
  | Ret a s' => Q a s'
  | Exn s' => E s'
  | UB => False
  end.

Lemma wp_bind {S A B} (m : M S A) (k : A -> M S B) Q E s :
  wp m (fun a s' => wp (k a) Q E s') E s -> wp (bind m k) Q E s.
Proof. unfold wp, bind. destruct (m s); auto. Qed.

Lemma wp_ret {S A} (a : A) (Q : A -> S -> Prop) E s : Q a s -> wp (ret a) Q E s.
Proof. auto. Qed.

Lemma wp_throw {S A} (Q : A -> S -> Prop) (E : S -> Prop) s : E s -> wp throw Q E s.
Proof. auto. Qed.

Lemma wp_try {S A} (m h : M S A) Q E s :
  wp m Q (fun s' => wp h Q E s') s -> wp (try_catch m h) Q E s.
Proof. unfold wp, try_catch. destruct (m s); auto. Qed.

Lemma wp_conseq {S A} (m : M S A) (Q Q' : A -> S -> Prop) (E E' : S -> Prop) s :
  wp m Q E s -> (forall a s', Q a s' -> Q' a s') -> (forall s', E s' -> E' s') ->
  wp m Q' E' s.
Proof. unfold wp. destruct (m s); auto. Qed.

Lemma wp_det {S A} (m : M S A) (Q : A -> S -> Prop) E s a s' :
  m s = Ret a s' -> Q a s' -> wp m Q E s.
Proof. unfold wp. intros ->. auto. Qed.

(** a call known to return normally *)
Lemma bind_ret {S A B} (m : M S A) (k : A -> M S B) s a s' :
  m s = Ret a s' -> bind m k s = k a s'.
Proof. unfold bind. now intros ->. Qed.

Lemma wp_bind_ret {S A B} (m : M S A) (k : A -> M S B) Q E s a s' :
  m s = Ret a s' -> wp (k a) Q E s' -> wp (bind m k) Q E s.
Proof. unfold wp, bind. now intros ->. Qed.

Ltac splits := repeat match goal with |- _ /\ _ => split end.

(** Permutations of lists of nodes, decided by counting *)
Definition one (a x : nat) : nat := if Nat.eq_dec a x then 1 else 0.
Lemma count_cons a l x : count_occ Nat.eq_dec (a :: l) x = one a x + count_occ Nat.eq_dec l x.
Proof. unfold one. cbn. destruct (Nat.eq_dec a x); reflexivity. Qed.
Lemma count_rev l x : count_occ Nat.eq_dec (rev l) x = count_occ Nat.eq_dec l x.
Proof.
  induction l as [|a l IH]; cbn [rev]; [reflexivity|].
  rewrite count_occ_app, !count_cons, IH. cbn. lia.
Qed.
Lemma count_filter_split (p : nat -> bool) l x :
  count_occ Nat.eq_dec (filter p l) x + count_occ Nat.eq_dec (filter (fun n => negb (p n)) l) x
  = count_occ Nat.eq_dec l x.
Proof.
  induction l as [|a l IH]; [reflexivity|]. cbn [filter].
  destruct (p a); cbn [negb]; rewrite !count_cons, <- IH; lia.
Qed.
Lemma perm_count l l' :
  (forall x, count_occ Nat.eq_dec l x = count_occ Nat.eq_dec l' x) <-> Permutation l l'.
Proof. symmetry. apply Permutation_count_occ. Qed.
Ltac perm :=
  unfold node in *;
  repeat match goal with H : Permutation _ _ |- _ =>
    rewrite <- perm_count in H end;
  rewrite <- perm_count; let x := fresh "x" in intros x;
  repeat match goal with H : forall y, count_occ Nat.eq_dec _ y = count_occ Nat.eq_dec _ y |- _ =>
    specialize (H x) end;
  repeat match goal with
    | H : context [count_occ Nat.eq_dec (_ ++ _) x] |- _ => rewrite count_occ_app in H
    | H : context [count_occ Nat.eq_dec (_ :: _) x] |- _ => rewrite count_cons in H
    | H : context [count_occ Nat.eq_dec (rev _) x] |- _ => rewrite count_rev in H
    | |- context [count_occ Nat.eq_dec (_ ++ _) x] => rewrite count_occ_app
    | |- context [count_occ Nat.eq_dec (_ :: _) x] => rewrite count_cons
    | |- context [count_occ Nat.eq_dec (rev _) x] => rewrite count_rev
    end; cbn [count_occ] in *;
  repeat match goal with |- context [count_occ Nat.eq_dec (filter ?p ?l) x] =>
    match p with (fun n => negb _) => fail 1 | _ => idtac end;
    lazymatch goal with
    | _ : count_occ _ (filter p l) x + _ = _ |- _ => fail
    | _ => pose proof (count_filter_split p l x) end
  end;
  lia.
