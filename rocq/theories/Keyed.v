(** Erasure of ranges, and of the elements with a key, through one index of a container.
    Sources (all under /repo/include/boost/multi_index):
      detail/ord_index_impl.hpp, hashed_index.hpp, sequenced_index.hpp *)
From Verif Require Import Prelude Layer LayerBase OrdModel OrdIdx HashModel HashIdx Stack View Container ContOk Iops Up Down History ContSpec Client ContProps Focus.
Set Implicit Arguments.

Section Keyed.
Variable V : Type.
Variable throws : nat -> bool.
Variable pick : list node -> node.
Variable dv : V.
Variable hd : node.
Variables cs1 cs2 : list (code V).
Variable this : code V.
Notation all := (Focus.all cs1 cs2 this).
Notation box := (box throws pick hd all).
Notation sequences := (@sequences V throws pick hd all).
Notation count := (@count V throws pick hd all).
Notation value_of := (@value_of V throws pick dv hd all).
Notation memory := (@memory V throws pick hd all).
Notation calls := (@calls V throws pick hd all).
Notation reachable := (@reachable V throws pick hd all).
Notation setting := (setting pick hd all).
Notation sup := (stack throws pick hd (mem_world V) cs2).
Notation lay := (layer_of throws pick hd this sup).
Notation this_of := (@down V throws pick hd (mem_world V) (this :: cs2) cs1).
Notation holds := (@Focus.holds V throws pick hd cs1 cs2 this).
Notation of_index := (@Focus.of_index V throws pick hd cs1 cs2 this _).
Notation gone := (@Focus.gone V throws pick hd cs1 cs2 this).
Implicit Types (s : St box) (lk nh l : list node) (ls : list (list node)).

(** ** Model *)

(** position++ of the index *)
Definition next_of (x : node) : M (St box) node := of_index (i_next throws pick hd this sup x).
(** erase(position): the same code in ord_index_impl.hpp:390-398, hashed_index.hpp:366-374 and
    sequenced_index.hpp:379-387, random_access_index.hpp:428-436 *)
Definition erase_at (x : node) : M (St box) node :=
  y <- next_of x ;; c_erase box x ;;; ret y.
(** while(first!=last){first=erase(first);}, ord_index_impl.hpp:420-422, hashed_index.hpp:409-411,
    sequenced_index.hpp:397-399; the number of turns, s of ord_index_impl.hpp:404-408, is a result as well.  [fuel] bounds the turns *)
Fixpoint erase_loop (fuel : nat) (first last : node) (n : nat) : M (St box) (node * nat) :=
  if first =? last then ret (first, n) else
  match fuel with
  | 0 => ub
  | S f => y <- erase_at first ;; erase_loop f y last (S n)
  end.
(** erase(first,last), ord_index_impl.hpp:412-424, hashed_index.hpp:400-412, sequenced_index.hpp:389-401;
    a random access index has other code, see erase_range in RndProps.v *)
Definition erase_range (first last : node) : M (St box) node :=
  n <- size box ;; r <- erase_loop n first last 0 ;; ret (fst r).

(** ** Proofs *)
Hypothesis St_ : setting.
Notation O := (box_ok throws dv St_).

Lemma putd_adv s n : putd throws pick hd (mem_world V) (this :: cs2) cs1 s (adv (stack throws pick hd (mem_world V) (this :: cs2)) n (this_of s)) = adv box n s.
Proof.
  unfold Client.box, Focus.all in *. clear St_. revert s. induction cs1 as [|c cs IH]; intros s; [reflexivity|].
  cbn [Up.putd Down.down app]. rewrite IH. destruct c, s; reflexivity.
Qed.
Lemma query A (m : M (St lay) A) s (P : A -> Prop) :
  match m (this_of s) with
  | Ret a t => P a /\ exists n, quiet throws (calls s) n /\ t = adv lay n (this_of s)
  | Exn t => exists n, blown throws (calls s) n /\ t = adv lay n (this_of s)
  | UB => False
  end ->
  match of_index m s with
  | Ret a s' => P a /\ exists n, quiet throws (calls s) n /\ s' = adv box n s
  | Exn s' => exists n, blown throws (calls s) n /\ s' = adv box n s
  | UB => False
  end.
Proof.
  intros H. rewrite of_index_eq. unfold Focus.all in *. destruct (m (this_of s)) as [a t|t|]; auto.
  - destruct H as (Pa & n & Q & ->). split; auto. exists n. split; auto. apply putd_adv.
  - destruct H as (n & Q & ->). exists n. split; auto. apply putd_adv.
Qed.
Lemma adv_memory s n : memory (adv box n s) = memory s.
Proof. unfold Client.memory, adv. now rewrite (o_bb O). Qed.
Lemma adv_calls s n : calls (adv box n s) = n.
Proof. unfold Client.calls, adv. now rewrite (o_bb O). Qed.
Lemma adv_value s n x : value_of (adv box n s) x = value_of s x.
Proof. unfold Client.value_of, val, adv. now rewrite (o_bb O). Qed.
Lemma adv_count s n : count (adv box n s) = count s.
Proof. unfold Client.count, adv. apply (o_cb O). Qed.
Lemma adv_calls_id s : adv box (calls s) s = s.
Proof. unfold adv, Client.calls. etransitivity; [|apply (o_gs O)]. f_equal. now destruct (bget box s). Qed.
Lemma adv_twice s n m : adv box n (adv box m s) = adv box n s.
Proof. unfold adv. now rewrite (o_bb O), (o_ss O). Qed.
(** calls to user functions alone *)
Lemma call_step s : exec throws pick hd box (run_index throws pick hd all) (Call V _) s =
  if throws (calls s) then Exn (adv box (S (calls s)) s) else Ret Nothing (adv box (S (calls s)) s).
Proof. cbn [exec]. unfold basM, lensM, bind, tick, Client.calls. destruct (throws (tk (bget box s))); reflexivity. Qed.
Lemma reach_quiet s lk nh n : reachable s lk nh -> quiet throws (calls s) n -> reachable (adv box n s) lk nh.
Proof.
  intros R (Le & Q). remember (n - calls s) as d eqn:D. revert s R Le Q D. induction d as [|d IH]; intros s R Le Q D.
  - replace n with (calls s) by lia. now rewrite adv_calls_id.
  - assert (R1 : reachable (adv box (S (calls s)) s) lk nh).
    { refine (@reach_ret V throws pick hd box _ _ _ _ s lk nh (Call V _) Nothing _ R I _). rewrite call_step, Q by lia. reflexivity. }
    rewrite <- (adv_twice s n (S (calls s))). apply IH; auto; rewrite adv_calls; try lia. intros i Hi. apply Q. lia.
Qed.
Lemma reach_blown s lk nh n : reachable s lk nh -> blown throws (calls s) n -> reachable (adv box n s) lk nh.
Proof.
  intros R (i & -> & Q & T). assert (R1 := reach_quiet R Q).
  refine (eq_rect _ (fun t => reachable t lk nh) (@reach_exn V throws pick hd box _ _ _ _ (adv box i s) lk nh (Call V _) (adv box (S i) s) R1 I _) _ eq_refl).
  rewrite call_step, adv_calls, T, adv_twice. reflexivity.
Qed.
Lemma adv_seq s lk nh ls n : reachable s lk nh -> sequences s = Some ls -> sequences (adv box n s) = Some ls.
Proof.
  intros R Sq. destruct (open dv St_ R Sq) as (a & G & -> & Lv).
  eapply good_views. exact (good_bset_tk O n G).
Qed.
Lemma adv_holds s lk nh l n : reachable s lk nh -> holds s l -> holds (adv box n s) l.
Proof. intros R (ls & Sq & Nt). exists ls. split; auto. eapply adv_seq; eauto. Qed.

Lemma next_ok s lk nh l1 x l2 : reachable s lk nh -> holds s (l1 ++ x :: l2) -> next_of x s = Ret (List.hd hd l2) s.
Proof.
  intros R H. destruct (open_at dv St_ R H) as (a & Rp & El & _ & _ & _ & _ & _ & _ & Cg).
  apply of_index_ro. eapply i_next_ok; [exact Rp|symmetry; exact El|]. unfold Focus.all in *. rewrite Cg, El. apply le_n.
Qed.
(** C52 *)
Theorem erase_at_ok s lk nh ls l1 x l2 : reachable s lk nh -> sequences s = Some ls -> nth_error ls (length cs1) = Some (l1 ++ x :: l2) ->
  match erase_at x s with
  | Ret y s' => y = List.hd hd l2 /\ reachable s' (remove Nat.eq_dec x lk) nh /\ gone s s' ls [x] /\ holds s' (l1 ++ l2)
  | _ => False
  end.
Proof.
  intros R Sq Nt. assert (H : holds s (l1 ++ x :: l2)) by (exists ls; auto). unfold erase_at, bind. rewrite (next_ok l1 x l2 R H).
  assert (Ix : In x lk). { eapply Permutation_in; [exact (perm_this dv St_ R H)|]. apply in_or_app. right. now left. }
  assert (W := erase_effect dv cs1 cs2 this St_ x R Sq Ix). destruct (c_erase box x s) as [u s'|s'|]; auto. destruct W as (R' & G). unfold ret. splits; auto.
  assert (H' := gone_this Nt G). rewrite <- remove_filter, remove_mid in H'; auto.
  assert (N := nodup_this dv St_ R H). now inversion N.
Qed.
Lemma erase_loop_ok seg : forall fuel s lk nh ls a b n, reachable s lk nh -> sequences s = Some ls ->
  nth_error ls (length cs1) = Some (a ++ seg ++ b) -> length seg <= fuel ->
  match erase_loop fuel (List.hd hd (seg ++ b)) (List.hd hd b) n s with
  | Ret r s' => r = (List.hd hd b, n + length seg) /\ (exists lk', reachable s' lk' nh) /\ gone s s' ls seg /\ holds s' (a ++ b)
  | _ => False
  end.
Proof.
  induction seg as [|x seg IH]; intros fuel s lk nh ls a b n R Sq Nt Fu.
  - cbn [app length]. destruct fuel; cbn [erase_loop]; rewrite Nat.eqb_refl; unfold ret; rewrite Nat.add_0_r; splits; eauto;
      try (now apply gone_nil); exists ls; auto.
  - destruct fuel as [|fuel]; [cbn in Fu; lia|]. cbn [erase_loop List.hd app].
    assert (H : holds s (a ++ x :: seg ++ b)) by (exists ls; auto).
    assert (ND := nodup_this dv St_ R H). rewrite NoDup_cons_iff, NoDup_app_iff, NoDup_cons_iff, in_app_iff in ND.
    destruct (Nat.eqb_spec x (List.hd hd b)) as [E|_].
    { exfalso. destruct b as [|y b]; cbn in E; subst x.
      - apply (proj1 ND). right. now left.
      - destruct ND as (_ & _ & (N1 & _) & _). apply N1. apply in_or_app. right. now left. }
    assert (W := erase_at_ok a x (seg ++ b) R Sq Nt). unfold bind. destruct (erase_at x s) as [y s1|s1|]; auto.
    destruct W as (-> & R1 & G1 & H1). assert (Sq1 : sequences s1 = Some (map (drop [x]) ls)) by apply G1.
    assert (Nt1 : nth_error (map (drop [x]) ls) (length cs1) = Some (a ++ seg ++ b)).
    { destruct H1 as (ls1 & A & B). rewrite A in Sq1. injection Sq1 as <-. exact B. }
    assert (W := IH fuel s1 _ nh _ a b (S n) R1 Sq1 Nt1 ltac:(cbn in Fu; lia)).
    destruct (erase_loop fuel _ _ _ s1) as [r s'|s'|]; auto. destruct W as (-> & R' & G' & H'). splits; auto.
    + f_equal. cbn. lia.
    + exact (gone_trans G1 G').
Qed.
Theorem erase_range_ok s lk nh ls a seg b : reachable s lk nh -> sequences s = Some ls ->
  nth_error ls (length cs1) = Some (a ++ seg ++ b) ->
  match erase_range (List.hd hd (seg ++ b)) (List.hd hd b) s with
  | Ret y s' => y = List.hd hd b /\ (exists lk', reachable s' lk' nh) /\ gone s s' ls seg /\ holds s' (a ++ b)
  | _ => False
  end.
Proof.
  intros R Sq Nt. unfold erase_range, bind, size.
  assert (H : holds s (a ++ seg ++ b)) by (exists ls; auto). destruct (open_at dv St_ R H) as (_ & _ & _ & _ & _ & _ & _ & C & _).
  assert (W := @erase_loop_ok seg (cget box s) s lk nh ls a b 0 R Sq Nt). unfold Client.count in C.
  assert (Le : length seg <= cget box s). { unfold Client.box in *. rewrite C, !app_length. lia. } specialize (W Le).
  destruct (erase_loop _ _ _ _ s) as [r s'|s'|]; auto. destruct W as (-> & W). unfold ret. auto.
Qed.
End Keyed.
