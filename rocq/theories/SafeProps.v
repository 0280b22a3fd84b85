(** C57: safe mode.  An iterator which safe mode takes for valid is an iterator of a container which exists, to an element which is in it or
    to its end; every incorrect use is reported before anything is done, no correct use is; exactly the iterators which become invalid are
    marked as such, and iterators follow their elements into other containers. *)
From Coq Require Import ZArith.
From Verif Require Import Prelude Safe SafeSpec SafeOk SafeSim.
Set Implicit Arguments.

Section Claims.
Variable local : list nat -> nat.
(** local iterators are put at addresses not in use *)
Hypothesis local_ok : forall l, ~ In (local l) (0 :: l).
Variable s : sst.
Hypothesis R : reach local s.

Lemma step o : allowed o (view s) ->
  match run local o s with
  | Ret r s' => correct o (view s) /\ (exists w, effect o (view s) r w /\ weq (view s') w) /\ ok s'
  | Exn s' => ~ correct o (view s) /\ weq (view s') (view s) /\ ok s'
  | UB => False
  end.
Proof. apply (run_ok local local_ok). exact (reach_is_ok local_ok R). Qed.
(** No pointer to something which does not exist is followed; lists of iterators end. *)
Theorem C57_defined o : allowed o (view s) -> run local o s <> UB.
Proof. intros Al E. assert (X := step o Al). now rewrite E in X. Qed.
(** The container of a valid iterator exists, and the iterator is at one of its positions. *)
Theorem C57_valid a c n : it (view s) a (At c n) -> exists i, pos (view s) c i n.
Proof.
  intros H. destruct (reach_is_ok local_ok R) as (_ & Sd). destruct (sound_good Sd) as ((G & _) & _). rewrite view_toW in *. destruct (G a c n H) as (h & l & Hc & J).
  apply In_nth_error in J as (i & J). exists i, h, l. auto.
Qed.
(** A position is not there twice. *)
Theorem C57_positions c i j n : pos (view s) c i n -> pos (view s) c j n -> i = j.
Proof.
  intros (h & l & Hc & E) (h' & l' & Hc' & E'). assert (h' = h /\ l' = l) as (-> & ->) by (split; congruence). destruct (reach_is_ok local_ok R) as (_ & Sd). destruct (sound_good Sd) as ((_ & G) & _).
  rewrite view_toW in Hc. assert (ND := G _ _ _ Hc). rewrite <- (nth_place ND i E). now apply nth_place.
Qed.
(** An incorrect use is reported, and nothing has changed. *)
Theorem C57_reported o : allowed o (view s) -> ~ correct o (view s) -> exists s', run local o s = Exn s' /\ weq (view s') (view s).
Proof.
  intros Al N. assert (X := step o Al). destruct (run local o s) as [r s'|s'|]; [| |easy].
  - now destruct N.
  - exists s'. split; [reflexivity|apply X].
Qed.
(** A correct use is not; it answers and does what it should. *)
Theorem C57_done o : allowed o (view s) -> correct o (view s) -> exists r s' w, run local o s = Ret r s' /\ effect o (view s) r w /\ weq (view s') w.
Proof.
  intros Al C. assert (X := step o Al). destruct (run local o s) as [r s'|s'|]; [| |easy].
  - destruct X as (_ & (w & E & Eq) & _). exists r, s', w. auto.
  - now destruct X.
Qed.
(** The value of * is an element which is in the container now. *)
Theorem C57_dereference a r s' : checked (view s) a -> run local (IDeref a) s = Ret r s' -> exists c n, r = RNode n /\ it (view s) a (At c n) /\ element (view s) c n.
Proof.
  intros Al E. assert (X := step (IDeref a) Al). rewrite E in X. destruct X as ((c & n & A & El) & (w & (_ & c' & n' & A' & ->) & _) & _).
  unfold it in *. assert (c' = c /\ n' = n) as (-> & ->) by (split; congruence). exists c, n. auto.
Qed.
(** When an element is erased the iterators to it are gone, the others are as before. *)
Theorem C57_extract c n r s' : element (view s) c n -> run local (CExtract c n) s = Ret r s' ->
  forall a x, it (view s') a x <-> (x = Gone /\ it (view s) a (At c n)) \/ (x <> At c n /\ it (view s) a x).
Proof.
  intros Al E a x. assert (X := step (CExtract c n) Al). rewrite E in X. destruct X as (_ & (w & (_ & h & p & q & Hc & ->) & (Eq & _)) & _).
  unfold it. rewrite Eq. cbn. clear. destruct (option_map iter_of (option_map shown (its s a))) as [y|]; cbn.
  2: { intuition discriminate. }
  destruct y as [|m|e m]; cbn.
  - intuition congruence.
  - intuition congruence.
  - destruct (Nat.eqb_spec e c) as [->|N], (Nat.eqb_spec n m) as [->|Nn]; cbn; intuition congruence.
Qed.
End Claims.

(** ** an example *)
Definition local1 (l : list nat) : nat := S (list_max l).
Lemma local1_ok l : ~ In (local1 l) (0 :: l).
Proof.
  intros [H|H]; [discriminate|]. unfold local1 in H. assert (X := proj1 (list_max_le l (list_max l)) (le_n _)). rewrite Forall_forall in X. apply X in H. lia.
Qed.
Fixpoint play (os : list op) (s : sst) : option sst :=
  match os with
  | [] => Some s
  | o :: os => match run local1 o s with Ret _ s' | Exn s' => play os s' | UB => None end
  end.
Definition peek (n : nat) (s : sst) : list (option iter) * list (option (node * list node)) := (map (iters (view s)) (seq 1 n), map (conts (view s)) (seq 1 2)).
Definition outcome (o : op) (s : sst) : nat * option answer := match run local1 o s with Ret r _ => (0, Some r) | Exn _ => (1, None) | UB => (2, None) end.
(** two indices; iterators 1, 2, 3 to 10, 11 and the end of the first, 4 is a copy of 2, 5 belongs to the second, 6 is singular, 7 loaded *)
Definition ops : list op :=
  [CNew 1 100; CNew 2 200; CInsert 1 0 12; CInsert 1 0 11; CInsert 1 0 10; CInsert 2 0 20;
   IMake 1 1 10; IMake 2 1 11; IMake 3 1 100; ICopy 4 2; IMake 5 2 20; INew 6; INew 7; IRestore 7 11].
Definition st0 : sst := match play ops start with Some s => s | None => start end.
Example safe_st0 : peek 8 st0 =
  ([Some (At 1 10); Some (At 1 11); Some (At 1 100); Some (At 1 11); Some (At 2 20); Some Gone; Some (Raw 11); None], [Some (100, [10; 11; 12]); Some (200, [20])]).
Proof. vm_compute. reflexivity. Qed.
Fixpoint legal (os : list op) (s : sst) : Prop :=
  match os with
  | [] => True
  | o :: os => allowed o (view s) /\ match run local1 o s with Ret _ s' | Exn s' => legal os s' | UB => False end
  end.
Lemma legal_reach os : forall s s', reach local1 s -> legal os s -> play os s = Some s' -> reach local1 s'.
Proof.
  induction os as [|o os IH]; intros s s' R L P; cbn in *; [congruence|]. destruct L as (Al & L). destruct (run local1 o s) as [r s1|s1|] eqn:E; [| |easy]; apply (IH s1); auto.
  - eapply reach_ok; eauto.
  - eapply reach_failed; eauto.
Qed.
Ltac legal := repeat match goal with
  | |- _ /\ _ => split | |- True => exact I | |- _ <> _ => discriminate | |- ?x = ?x => reflexivity
  | |- forall i, _ -> False => intros i (h & l & [= <- <-] & J); do 5 (destruct i as [|i]; [discriminate J|]); destruct i; discriminate J
  | |- exists x, Some ?y = Some x /\ _ => exists y
  | |- exists h l, Some (?a, ?b) = Some (h, l) /\ _ => exists a, b
  | |- forall n, _ = _ -> False => discriminate
  | |- _ = _ -> False => discriminate
  end; auto.
Example safe_legal : legal ops start.
Proof. vm_compute. legal. all: first [solve [exists 0; eexists _, _; split; reflexivity] | solve [exists 1; eexists _, _; split; reflexivity] | solve [exists 3; eexists _, _; split; reflexivity]]. Qed.
Example safe_reach : reach local1 st0.
Proof. apply (@legal_reach ops start); [constructor|exact safe_legal|]. vm_compute. reflexivity. Qed.
Definition then_ o : list (option iter) * list (option (node * list node)) := match run local1 o st0 with Ret _ s | Exn s => peek 8 s | UB => ([], []) end.
(** what is reported, and what is not *)
Example safe_uses : map (fun o => outcome o st0)
  [IDeref 2; IDeref 3; IDeref 6; IIncr 3; IDecr 1; IDecr 3; IAdvance 1 3; IAdvance 1 4; IAdvance 3 (-3); IAdvance 2 (-2); IEqual 1 5; IEqual 2 4; IEqual 2 7; IEqual 6 6;
   IDistance 1 3; IDistance 1 5; IRange 1 3; IRange 2 1; IRange 1 5; IOwner 1 1; IOwner 1 2; IAssign 1 6; IAssign 6 1; CErase 1 3 8; CErase 2 1 8] =
  let good r := (0, Some r) in let bad := (1, None) in
  [good (RNode 11); bad; bad; bad; bad; good RU; good RU; bad; good RU; bad; bad; good (RBool true); good (RBool true); bad;
   good (RInt 3); bad; good RU; bad; bad; good RU; bad; bad; good RU; bad; bad].
Proof. vm_compute. reflexivity. Qed.
(** positions outside of a range; nothing is asked of the position when the range is empty *)
Example safe_outside : map (fun o => outcome o st0) [IOutside 1 2 3; IOutside 3 1 3; IOutside 2 2 3; IOutside 2 1 3; IOutside 2 3 1; IOutside 5 1 3; IOutside 6 1 3; IOutside 5 2 4; IOutside 1 1 5] =
  let good := (0, Some RU) in let bad := (1, None) in [good; good; bad; bad; bad; bad; bad; good; bad].
Proof. vm_compute. reflexivity. Qed.
(** two indices of the same container: the elements are 10, 11, 12 and 12, 11, 10 *)
Definition ops2 : list op :=
  [CNew 1 100; CNew 2 100; CInsert 1 0 12; CInsert 1 0 11; CInsert 1 0 10; CInsert 2 0 10; CInsert 2 0 11; CInsert 2 0 12;
   IMake 1 1 11; IMake 2 2 12; IMake 3 2 10; IMake 4 2 100; IMake 5 1 100; INew 6].
Definition st2 : sst := match play ops2 start with Some s => s | None => start end.
Example safe_reach2 : reach local1 st2.
Proof.
  apply (@legal_reach ops2 start); [constructor| |vm_compute; reflexivity]. vm_compute. legal.
  all: first [solve [exists 0; eexists _, _; split; reflexivity] | solve [exists 1; eexists _, _; split; reflexivity] | solve [exists 2; eexists _, _; split; reflexivity] | solve [exists 3; eexists _, _; split; reflexivity]].
Qed.
Example safe_outside2 : map (fun o => outcome o st2)
  [IOutside2 1 2 3; IOutside2 1 2 4; IOutside2 1 3 4; IOutside2 1 4 4; IOutside2 5 2 4; IOutside2 6 2 4; IOutside2 1 6 2; IOutside2 1 3 2; IOutside2 1 3 6; IOutside2 1 2 5] =
  let good := (0, Some RU) in let bad := (1, None) in [bad; bad; good; good; good; good; good; bad; bad; bad].
Proof. vm_compute. reflexivity. Qed.
Example safe_belongs : map (fun o => outcome o st2) [IBelongs 1 2; IBelongs 2 1; IBelongs 5 2; IBelongs 6 1] = [(0, Some RU); (0, Some RU); (0, Some RU); (1, None)] /\
  map (fun o => outcome o st0) [IBelongs 1 2; IBelongs 1 1; IBelongs 7 1] = [(1, None); (0, Some RU); (0, Some RU)].
Proof. vm_compute. auto. Qed.
Example safe_erase : then_ (CErase 1 2 8) =
  ([Some (At 1 10); Some Gone; Some (At 1 100); Some Gone; Some (At 2 20); Some Gone; Some (Raw 11); Some (At 1 12)], [Some (100, [10; 12]); Some (200, [20])]).
Proof. vm_compute. reflexivity. Qed.
Example safe_transfer : then_ (CTransfer 1 2 1 true 11) =
  ([Some (At 1 10); Some (At 2 11); Some (At 1 100); Some (At 2 11); Some (At 2 20); Some Gone; Some (Raw 11); None], [Some (100, [10; 12]); Some (200, [20; 11])]).
Proof. vm_compute. reflexivity. Qed.
Example safe_clear : then_ (CClear 1) =
  ([Some Gone; Some Gone; Some (At 1 100); Some Gone; Some (At 2 20); Some Gone; Some (Raw 11); None], [Some (100, []); Some (200, [20])]).
Proof. vm_compute. reflexivity. Qed.
Example safe_swap : then_ (CSwap 1 2) =
  ([Some (At 2 10); Some (At 2 11); Some (At 2 100); Some (At 2 11); Some (At 1 20); Some Gone; Some (Raw 11); None], [Some (200, [20]); Some (100, [10; 11; 12])]).
Proof. vm_compute. reflexivity. Qed.
Example safe_destroy : then_ (CDestroy 1) =
  ([Some Gone; Some Gone; Some Gone; Some Gone; Some (At 2 20); Some Gone; Some (Raw 11); None], [None; Some (200, [20])]).
Proof. vm_compute. reflexivity. Qed.

Print Assumptions C57_defined.
Print Assumptions C57_valid.
Print Assumptions C57_positions.
Print Assumptions C57_reported.
Print Assumptions C57_done.
Print Assumptions C57_dereference.
Print Assumptions C57_extract.
