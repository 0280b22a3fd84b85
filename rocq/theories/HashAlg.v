(** The node algorithms of hashed indices do what they should to the cells. *)
From Verif Require Import Prelude Layer LayerBase HashModel HashHeap.
Set Implicit Arguments.

Lemma bptr_neqb v w : v <> w -> bptr_eqb v w = false.
Proof. intros N. now destruct (bptr_eqb_spec v w). Qed.

Lemma last_cons {A} (y : A) m d : last (y :: m) d = last m y.
Proof. destruct m as [|z m]; [reflexivity|]. exact (last_dflt z m d y). Qed.

(** ** Tactics: symbolic execution *)
Ltac in_tac := repeat first [left; reflexivity | right].
Ltac dup ND :=
  first [ exfalso; apply NoDup_cons_iff in ND; destruct ND as (ND & _); apply ND; solve [in_tac]
        | apply NoDup_cons_iff in ND; destruct ND as (_ & ND); dup ND ].
(** x <> y because of separate cells *)
Ltac neq_tac H x y :=
  let Heq := fresh "Heq" in let ND := fresh "ND" in
  intros Heq; destruct H as (ND & _); cbn [map app fst] in ND;
  first [ subst x | subst y | rewrite Heq in ND ]; dup ND.
Ltac decide_eqb :=
  match goal with
  | H : hs _ _ |- context [?x =? ?y] =>
    first [ unify x y; rewrite (Nat.eqb_refl x)
          | match goal with N : x <> y |- _ => rewrite (proj2 (Nat.eqb_neq x y) N) end
          | match goal with N : y <> x |- _ => rewrite (proj2 (Nat.eqb_neq x y) (not_eq_sym N)) end
          | rewrite (proj2 (Nat.eqb_neq x y)) by (neq_tac H x y) ]
  | N : ?v <> ?w |- context [bptr_eqb ?v ?w] => rewrite (bptr_neqb N)
  end.
Ltac newheap :=
  let H' := fresh "H" in
  intros H';
  match type of H' with
  | hs ?h _ => match goal with H : hs ?h0 _ |- _ => lazymatch h with h0 => fail | _ => clear H end end;
               let h' := fresh "h" in revert H'; generalize h; intros h' H'
  end.
Ltac repl_tac := repeat first [apply repl_here | apply repl_skip].
Ltac cl := cbn [negb bptr_eqb andb orb fst snd pfrom].
Ltac hstep :=
  match goal with
  | |- wp (bind (bind _ _) _) _ _ _ => apply wp_bind
  | |- wp (bind (ret _) _) _ _ _ => apply wp_bind, wp_ret; cl
  | |- wp (bind (pfrom (PN _)) _) _ _ _ => apply wp_bind, wp_ret; cl
  | |- wp (pfrom (PN _)) _ _ _ => apply wp_ret; cl
  | H : hs ?h _ |- wp (bind (pri _) _) _ _ ?h => eapply wp_pri; [exact H|first [solve [in_tac]|eassumption]|]
  | H : hs ?h _ |- wp (bind (nxt _) _) _ _ ?h => eapply wp_nxt; [exact H|first [solve [in_tac]|eassumption]|]
  | H : hs ?h _ |- wp (pri _) _ _ ?h => unfold pri at 1; eapply wp_rd; [exact H|first [solve [in_tac]|eassumption]|]; cl
  | |- wp (bind (set_pri _ _) _) _ _ _ => unfold set_pri at 1
  | |- wp (bind (set_nxt _ _) _) _ _ _ => unfold set_nxt at 1
  | |- wp (set_pri _ _) _ _ _ => unfold set_pri at 1
  | |- wp (set_nxt _ _) _ _ _ => unfold set_nxt at 1
  | H : hs ?h _ |- wp (bind (wr _ _) _) _ _ ?h => eapply wp_wr; [exact H|solve [repl_tac]|newheap]
  | H : hs ?h _ |- wp (wr _ _) _ _ ?h => eapply wp_wr1; [exact H|solve [repl_tac]|newheap]
  | |- wp (ret _) _ _ _ => apply wp_ret; cl
  | |- context [bptr_eqb _ _] => first [progress cl|decide_eqb; cl]
  | |- context [_ =? _] => decide_eqb; cl
  end.

(** the assigner *)
Definition fits (tr : bool) (t : tracks) (l : loc) : bool :=
  if tr then match l with PR _ => length (fst t) <? 3 | NX _ => length (snd t) <? 2 end else true.
Definition note (tr : bool) (t : tracks) (l : loc) (old : bptr) : tracks :=
  if tr then match l with PR _ => ((l, old) :: fst t, snd t) | NX _ => (fst t, (l, old) :: snd t) end else t.
Section Asg.
Context {A : Type}.
Lemma wp_asg tr h C C' l old v t (k : unit -> UM A) Q E :
  hs h C -> In (l, old) C -> repl l v C C' -> fits tr t l = true ->
  (hs (hset h l (Some v)) C' -> wp (k tt) Q E (hset h l (Some v), note tr t l old)) ->
  wp (bind (asg tr l v) k) Q E (h, t).
Proof.
  intros H I R F W. assert (W' := W (hs_wr H R)). clear W.
  unfold asg. apply wp_bind, wp_bind. unfold wp at 1, ownM at 1, lensM at 1, rd at 1. cbn [fst].
  rewrite (hs_in _ _ H I). cbn [snd]. apply wp_bind.
  assert (G : wp (ownM (wr l v)) (fun a s' => wp (k a) Q E s') E (h, note tr t l old)).
  { unfold wp at 1, ownM, lensM, wr. cbn [fst]. now rewrite (hs_in _ _ H I). }
  unfold fits, note in *. destruct tr; [|exact G].
  unfold wp at 1, supM, lensM, track. cbn [fst snd]. destruct l; rewrite F; exact G.
Qed.
Lemma wp_asg1 tr h C C' l old v t (Q : unit -> heap * tracks -> Prop) E :
  hs h C -> In (l, old) C -> repl l v C C' -> fits tr t l = true ->
  (hs (hset h l (Some v)) C' -> Q tt (hset h l (Some v), note tr t l old)) ->
  wp (asg tr l v) Q E (h, t).
Proof.
  intros H I R F W. assert (W' := W (hs_wr H R)). clear W.
  unfold asg. apply wp_bind. unfold wp at 1, ownM at 1, lensM at 1, rd at 1. cbn [fst].
  rewrite (hs_in _ _ H I). cbn [snd]. apply wp_bind.
  assert (G : wp (ownM (wr l v)) Q E (h, note tr t l old)).
  { unfold wp, ownM, lensM, wr. cbn [fst]. now rewrite (hs_in _ _ H I). }
  unfold fits, note in *. destruct tr; [|exact G].
  unfold wp at 1, supM, lensM, track. cbn [fst snd]. destruct l; rewrite F; exact G.
Qed.
Lemma wp_uread {B} (m : HM B) b0 h t (k : B -> UM A) Q E :
  wp m (fun b h' => b = b0 /\ h' = h) (fun _ => False) h -> wp (k b0) Q E (h, t) ->
  wp (bind (hM m) k) Q E (h, t).
Proof.
  intros H W. apply wp_bind. unfold wp, ownM, lensM in *. cbn. destruct (m h); try easy. now destruct H as (-> & ->).
Qed.
End Asg.
Ltac fits_tac := match goal with |- fits ?tr _ _ = true => destruct tr; reflexivity end.
Ltac ustep :=
  match goal with
  | |- wp (bind (bind _ _) _) _ _ _ => apply wp_bind
  | |- wp (bind (ret _) _) _ _ _ => apply wp_bind, wp_ret; cl
  | |- wp (bind (hM (pfrom (PN _))) _) _ _ _ => apply wp_upfrom; cl
  | H : hs ?h _ |- wp (bind (hM (pri _)) _) _ _ (?h, _) => eapply wp_upri; [exact H|first [solve [in_tac]|eassumption]|]
  | H : hs ?h _ |- wp (bind (hM (nxt _)) _) _ _ (?h, _) => eapply wp_unxt; [exact H|first [solve [in_tac]|eassumption]|]
  | H : hs ?h _ |- wp (bind (hM _) _) _ _ (?h, _) =>
      eapply wp_uread; [repeat hstep; split; reflexivity|cbn beta; cl]
  | H : hs ?h _ |- wp (bind (asg _ _ _) _) _ _ (?h, _) =>
      eapply wp_asg; [exact H|solve [in_tac]|solve [repl_tac]|fits_tac|newheap]
  | H : hs ?h _ |- wp (asg _ _ _) _ _ (?h, _) =>
      eapply wp_asg1; [exact H|solve [in_tac]|solve [repl_tac]|fits_tac|newheap]
  | |- wp (ret _) _ _ _ => apply wp_ret; cl
  | |- context [bptr_eqb _ _] => first [progress cl|decide_eqb; cl]
  | |- context [_ =? _] => decide_eqb; cl
  end.

(** permutations with contents to be found *)
Inductive take (c : cell) : list cell -> list cell -> Prop :=
| take_here C : take c (c :: C) C
| take_skip d C C' : take c C C' -> take c (d :: C) (d :: C').
Lemma take_perm c C C' D : take c C C' -> Permutation C' D -> Permutation C (c :: D).
Proof.
  intros T P. transitivity (c :: C'); [|now constructor]. clear P. induction T as [|d C C' T IH]; auto.
  rewrite IH. apply perm_swap.
Qed.
Ltac ptac := cbn [app fst snd];
  repeat (eapply take_perm; [solve [repeat first [apply take_here | apply take_skip]]|]); apply Permutation_refl.
Ltac done_cells := cbn [fst snd app]; eapply hs_perm; [|eassumption]; ptac.

(** which bucket is left empty by the removal of a segment of bucket i between buckets pi and j *)
Definition emptied (a : nat) (pi : option nat) (i j : nat) : list cell :=
  if same_bucket pi i then [] else if i =? j then [] else [(PR (PB a i), PN null)].

Lemma same_bucket_spec pi i : reflect (pi = Some i) (same_bucket pi i).
Proof.
  destruct pi as [j|]; cbn; [|constructor; congruence]. destruct (Nat.eqb_spec j i); constructor; congruence.
Qed.

(** cases of the buckets of three consecutive segments *)
Ltac buckets :=
  unfold joint, emptied in *;
  repeat match goal with
  | |- context [same_bucket ?pi ?i] => destruct (same_bucket_spec pi i); try subst; try congruence
  | H : context [same_bucket ?pi ?i] |- _ => destruct (same_bucket_spec pi i); try subst; try congruence
  | |- context [if ?i =? ?j then _ else _] => destruct (Nat.eqb_spec i j); try subst; try congruence
  end; cbn [same_bucket] in *; try congruence;
  repeat match goal with
  | H : Some ?x = Some ?y |- _ => injection H as H; try subst
  | H : ?x <> ?x |- _ => contradiction
  | H : Some ?x <> Some ?x |- _ => contradiction
  end; try solve [exfalso; auto].
Ltac reorder C := match goal with H : hs ?h _ |- _ =>
  let H' := fresh "H" in assert (H' : hs h C) by (eapply hs_perm; [|exact H]; permc); clear H; rename H' into H end.
Ltac finish := cbn [fst snd app]; eapply hs_perm; [|eassumption]; permc.

Section Alg.
Variable a : nat.

Lemma u_unlink_local tr h pi p i x j q F :
  (pi = Some j -> i = j) ->
  hs h (joint a pi p i x ++ joint a (Some i) x j q ++ F) ->
  wp (u_unlink tr x)
     (fun _ s => exists v w, hs (fst s) (joint a pi p j q ++ emptied a pi i j ++ (PR (PN x), v) :: (NX x, w) :: F))
     (fun _ => False) (h, ([], [])).
Proof.
  intros Ct H. unfold u_unlink, u_first_of_bucket, u_last_of_bucket. buckets; cbn [app] in H.
  all: repeat ustep; do 2 eexists; done_cells.
Qed.

(** unlinking an element which is a segment *)
Lemma n_unlink_one tr h pi p i x j q F :
  (pi = Some j -> i = j) ->
  hs h (joint a pi p i x ++ joint a (Some i) x j q ++ F) ->
  wp (n_unlink tr x)
     (fun _ s => exists v w, hs (fst s) (joint a pi p j q ++ emptied a pi i j ++ (PR (PN x), v) :: (NX x, w) :: F))
     (fun _ => False) (h, ([], [])).
Proof.
  intros Ct H. unfold n_unlink, linked_left, linked_right, n_last_of_bucket, n_first_of_bucket, group_end, left_unlink,
    right_unlink, right_unlink_last_of_bucket, left_unlink_first_of_bucket. buckets; cbn [app] in H.
  all: repeat ustep; do 2 eexists; done_cells.
Qed.

Ltac unf := unfold n_unlink, linked_left, linked_right, n_last_of_bucket, n_first_of_bucket, group_end, is_second, left_unlink,
    right_unlink, right_unlink_last_of_bucket, left_unlink_first_of_bucket, right_unlink_first_of_group,
    left_unlink_last_of_group, unlink_last_but_one_of_group, unlink_second_of_group.
Definition plain (p q : node) : list cell := [(NX p, PN q); (PR (PN q), PN p)].

(** the first of three *)
Lemma n_unlink_first3 tr h pi p i x s l F :
  hs h (joint a pi p i x ++ inner [x; s; l] ++ F) ->
  wp (n_unlink tr x)
     (fun _ st => exists v w, hs (fst st) (joint a pi p i s ++ plain s l ++ (PR (PN x), v) :: (NX x, w) :: F))
     (fun _ => False) (h, ([], [])).
Proof.
  intros H. unf. unfold joint in *. change [x; s; l] with (x :: s :: [] ++ [l]) in H. rewrite inner_grp in H. cbn [dl last app] in H.
  destruct (same_bucket pi i); cbn [app] in H.
  all: repeat ustep; do 2 eexists; done_cells.
Qed.
(** the first of more *)
Ltac tame y := match goal with |- context [last ?l ?d] => generalize dependent (last l d) end; intros y.
Ltac go C := reorder C; cbn [app] in *; repeat ustep; do 2 eexists; finish.
Lemma n_unlink_first tr h pi p i x s t m l F :
  hs h (joint a pi p i x ++ inner (x :: s :: t :: m ++ [l]) ++ F) ->
  wp (n_unlink tr x)
     (fun _ st => exists v w, hs (fst st) (joint a pi p i s ++ inner (s :: t :: m ++ [l]) ++ (PR (PN x), v) :: (NX x, w) :: F))
     (fun _ => False) (h, ([], [])).
Proof.
  intros H. unf. unfold joint in *. rewrite app_comm_cons in H. rewrite inner_grp in *. rewrite last_cons in H.
  cbn [dl] in H. tame y. intros H. destruct (same_bucket pi i); cbn [app] in H.
  - reorder ([(NX p, PN x); (PR (PN x), PN p); (NX x, PN s); (PR (PN s), PN l); (NX s, PN t); (PR (PN t), PN s);
      (NX y, PN x); (PR (PN l), PN y)] ++ dl t m ++ F). cbn [app] in H. repeat ustep.
    exists (PN p), (PN s). finish.
  - reorder ([(NX p, PB a i); (PR (PB a i), PN x); (PR (PN x), PN p); (NX x, PN s); (PR (PN s), PN l); (NX s, PN t); (PR (PN t), PN s);
      (NX y, PN x); (PR (PN l), PN y)] ++ dl t m ++ F). cbn [app] in H. repeat ustep.
    exists (PN p), (PN s). finish.
Qed.

(** what lies before the first element [f] of a group: [w] is the prior of [f]'s prior *)
Definition lctx (C : list cell) (p x : node) : Prop :=
  exists w v, In (PR (PN p), PN w) C /\ In (NX w, v) C /\ w <> x /\ v <> PN x.
Definition rctx (C : list cell) (q x : node) : Prop :=
  exists v, In (NX q, v) C /\ v <> PN x.
Lemma lctx_perm C D p x : Permutation C D -> lctx C p x -> lctx D p x.
Proof. intros P (w & v & A & B & H). exists w, v. repeat split; try tauto; eapply Permutation_in; eauto. Qed.
Lemma rctx_perm C D p x : Permutation C D -> rctx C p x -> rctx D p x.
Proof. intros P (v & B & H). exists v. repeat split; try tauto; eapply Permutation_in; eauto. Qed.

(** the second of three *)
Lemma n_unlink_second3 tr h pi p i f x l j q F :
  let C := joint a pi p i f ++ inner [f; x; l] ++ joint a (Some i) l j q ++ F in
  hs h C -> lctx C p x ->
  wp (n_unlink tr x)
     (fun _ st => exists v w, hs (fst st) (joint a pi p i f ++ plain f l ++ joint a (Some i) l j q ++ (PR (PN x), v) :: (NX x, w) :: F))
     (fun _ => False) (h, ([], [])).
Proof.
  intros C H (w & v & W1 & W2 & W3 & W4). subst C. unf. unfold joint in *. change [f; x; l] with (f :: x :: [] ++ [l]) in *.
  rewrite inner_grp in *. cbn [dl last app] in *. cbn [same_bucket] in *.
  destruct (i =? j); destruct (same_bucket pi i); cbn [app] in *.
  all: repeat ustep; do 2 eexists; done_cells.
Qed.
(** the second of more *)
Lemma n_unlink_second tr h f x t m i l j q F :
  hs h (inner (f :: x :: t :: m ++ [l]) ++ joint a (Some i) l j q ++ F) ->
  wp (n_unlink tr x)
     (fun _ st => exists v w, hs (fst st) (inner (f :: t :: m ++ [l]) ++ joint a (Some i) l j q ++ (PR (PN x), v) :: (NX x, w) :: F))
     (fun _ => False) (h, ([], [])).
Proof.
  intros H. unf. rewrite (app_comm_cons m) in H. rewrite inner_grp in *. rewrite last_cons in H.
  cbn [dl] in H. tame y. intros H. unfold joint in *. cbn [same_bucket] in *. destruct (i =? j).
  - reorder ([(NX f, PN x); (PR (PN x), PN l); (NX x, PN t); (PR (PN t), PN x);
      (NX y, PN f); (PR (PN l), PN y); (NX l, PN q); (PR (PN q), PN l)] ++ dl t m ++ F).
    cbn [app] in H. repeat ustep. exists (PN l), (PN t). finish.
  - reorder ([(NX f, PN x); (PR (PN x), PN l); (NX x, PN t); (PR (PN t), PN x);
      (NX y, PN f); (PR (PN l), PN y); (NX l, PB a j); (PR (PB a j), PN q); (PR (PN q), PN l)] ++ dl t m ++ F).
    cbn [app] in H. repeat ustep. exists (PN l), (PN t). finish.
Qed.
(** one in the middle *)
Lemma n_unlink_middle tr h f s m1 x y m2 l F :
  hs h (inner (f :: s :: (m1 ++ x :: y :: m2) ++ [l]) ++ F) ->
  wp (n_unlink tr x)
     (fun _ st => exists v w, hs (fst st) (inner (f :: s :: (m1 ++ y :: m2) ++ [l]) ++ (PR (PN x), v) :: (NX x, w) :: F))
     (fun _ => False) (h, ([], [])).
Proof.
  intros H. unf. rewrite inner_grp in *. rewrite !last_app_cons, !last_cons in *. rewrite !dl_app in *.
  cbn [dl] in H. generalize dependent (last m1 s). intros z. generalize dependent (last m2 y). intros e H.
  reorder ([(NX z, PN x); (PR (PN x), PN z); (NX x, PN y); (PR (PN y), PN x)] ++
    dl s m1 ++ dl y m2 ++ (NX f, PN s) :: (PR (PN s), PN l) :: (NX e, PN f) :: (PR (PN l), PN e) :: F). cbn [app] in H. repeat ustep.
  exists (PN z), (PN y). finish.
Qed.
(** the last but one of four or more *)
Lemma n_unlink_penult tr h pi p i f s m1 x l F :
  hs h (joint a pi p i f ++ inner (f :: s :: (m1 ++ [x]) ++ [l]) ++ F) ->
  lctx (joint a pi p i f ++ inner (f :: s :: (m1 ++ [x]) ++ [l]) ++ F) p x ->
  wp (n_unlink tr x)
     (fun _ st => exists v w, hs (fst st) (joint a pi p i f ++ inner (f :: s :: m1 ++ [l]) ++ (PR (PN x), v) :: (NX x, w) :: F))
     (fun _ => False) (h, ([], [])).
Proof.
  intros H C. unf. rewrite inner_grp in *. rewrite !last_app_cons, !last_cons in *. rewrite !dl_app in *.
  cbn [dl last] in *. generalize dependent (last m1 s). intros z H C.
  assert (EJ : exists (J : list cell) v, Permutation (joint a pi p i f) ((PR (PN f), PN p) :: (NX p, v) :: J)).
  { unfold joint. destruct (same_bucket pi i); [exists [], (PN f)|exists [(PR (PB a i), PN f)], (PB a i)]; permc. }
  destruct EJ as (J & u & EJ).
  assert (P : Permutation (joint a pi p i f ++ ((NX f, PN s) :: (PR (PN s), PN l) :: (dl s m1 ++ [(NX z, PN x); (PR (PN x), PN z)]) ++
          [(NX x, PN f); (PR (PN l), PN x)]) ++ F) ([(PR (PN f), PN p); (NX p, u); (NX f, PN s); (PR (PN s), PN l);(NX z, PN x); (PR (PN x), PN z);
          (NX x, PN f); (PR (PN l), PN x)] ++ J ++ dl s m1 ++ F)) by permc.
  apply (hs_perm P) in H. apply (lctx_perm P) in C. clear P. destruct C as (w & v & W1 & W2 & W3 & W4).
  cbn [app] in *. repeat ustep. exists (PN z), (PN f). finish.
Qed.
(** the last of three *)
Lemma n_unlink_last3 tr h pi p i f s x j q F :
  let C := joint a pi p i f ++ inner [f; s; x] ++ joint a (Some i) x j q ++ F in
  hs h C -> (i = j -> rctx C q x) ->
  wp (n_unlink tr x)
     (fun _ st => exists v w, hs (fst st) (joint a pi p i f ++ plain f s ++ joint a (Some i) s j q ++ (PR (PN x), v) :: (NX x, w) :: F))
     (fun _ => False) (h, ([], [])).
Proof.
  intros C H R. subst C. unf. unfold joint in *. change [f; s; x] with (f :: s :: [] ++ [x]) in *.
  rewrite inner_grp in *. cbn [dl last app] in *. cbn [same_bucket] in *.
  destruct (Nat.eqb_spec i j); [destruct (R e) as (v & R1 & R2); subst j; clear R|clear R];
  destruct (same_bucket pi i); cbn [app] in *.
  all: repeat ustep; do 2 eexists; done_cells.
Qed.
(** the last of more *)
Lemma n_unlink_last_ tr h pi p i f s m y x j q F :
  hs h (joint a pi p i f ++ inner (f :: s :: (m ++ [y]) ++ [x]) ++ joint a (Some i) x j q ++ F) ->
  wp (n_unlink tr x)
     (fun _ st => exists v w, hs (fst st) (joint a pi p i f ++ inner (f :: s :: m ++ [y]) ++ joint a (Some i) y j q ++ (PR (PN x), v) :: (NX x, w) :: F))
     (fun _ => False) (h, ([], [])).
Proof.
  intros H. unf. unfold joint in *. rewrite inner_grp in *. rewrite !last_app_cons, !last_cons in *. rewrite !dl_app in *.
  cbn [dl last] in *. cbn [same_bucket] in *. generalize dependent (last m s). intros z H.
  destruct (Nat.eqb_spec i j) as [->|Ne]; destruct (same_bucket pi _); cbn [app] in *.
  - reorder ([(NX p, PN f); (PR (PN f), PN p); (NX f, PN s); (PR (PN s), PN x); (NX z, PN y); (PR (PN y), PN z);
         (NX y, PN f); (PR (PN x), PN y); (NX x, PN q); (PR (PN q), PN x)] ++ dl s m ++ F).
    cbn [app] in *. repeat ustep. exists (PN y), (PN q). finish.
  - reorder ([(NX p, PB a j); (PR (PB a j), PN f); (PR (PN f), PN p); (NX f, PN s); (PR (PN s), PN x); (NX z, PN y); (PR (PN y), PN z);
         (NX y, PN f); (PR (PN x), PN y); (NX x, PN q); (PR (PN q), PN x)] ++ dl s m ++ F).
    cbn [app] in *. repeat ustep. exists (PN y), (PN q). finish.
  - reorder ([(NX p, PN f); (PR (PN f), PN p); (NX f, PN s); (PR (PN s), PN x); (NX z, PN y); (PR (PN y), PN z);
         (NX y, PN f); (PR (PN x), PN y); (NX x, PB a j); (PR (PB a j), PN q); (PR (PN q), PN x)] ++ dl s m ++ F).
    cbn [app] in *. repeat ustep. exists (PN y), (PB a j). finish.
  - reorder ([(NX p, PB a i); (PR (PB a i), PN f); (PR (PN f), PN p); (NX f, PN s); (PR (PN s), PN x); (NX z, PN y); (PR (PN y), PN z);
         (NX y, PN f); (PR (PN x), PN y); (NX x, PB a j); (PR (PB a j), PN q); (PR (PN q), PN x)] ++ dl s m ++ F).
    cbn [app] in *. repeat ustep. exists (PN y), (PB a j). finish.
Qed.
End Alg.
