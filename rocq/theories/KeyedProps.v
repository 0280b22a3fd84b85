(** C52: erasing and extracting by key, and erasing ranges. *)
From Verif Require Import Prelude Layer LayerBase OrdModel OrdIdx OrdSpec OrdLook HashModel HashHeap HashLay HashSpec HashIdx HashPoint Stack View Container ContOk Iops Up Down History ContSpec Client ContProps Focus Keyed.
From Verif Require OrdProps HashProps ContEx.
Set Implicit Arguments.

(** what the user of an index with sequence [l] gets from erase(k) and extract(k), the elements [m] having a key
    equivalent to [k]: they are a segment of the sequence *)
Section Outcome.
Variable V : Type.
Variable throws : nat -> bool.
Variable pick : list node -> node.
Variable dv : V.
Variable hd : node.
Variables cs1 cs2 : list (code V).
Variable this : code V.
Notation all := (Focus.all cs1 cs2 this).
Notation box := (box throws pick hd all).
Notation sequences := (@sequences V throws pick hd all).
Notation count := (@count V throws pick hd all).
Notation memory := (@memory V throws pick hd all).
Notation calls := (@calls V throws pick hd all).
Notation reachable := (@reachable V throws pick hd all).
Implicit Types (s : St box) (lk nh l : list node) (ls : list (list node)).

(** nothing has changed but the number of calls *)
Definition as_before s s' lk nh ls : Prop :=
  reachable s' lk nh /\ memory s' = memory s /\ count s' = count s /\ sequences s' = Some ls.
(** the elements of [m] are gone from all indices and from memory; nothing else has changed *)
Definition erased_all s s' nh ls (m : list node) : Prop :=
  (exists lk', reachable s' lk' nh) /\ sequences s' = Some (map (filter (fun x => negb (existsb (Nat.eqb x) m))) ls) /\
  (forall x, In x m -> look (memory s') x = None) /\ (forall x, ~ In x m -> look (memory s') x = look (memory s) x).
Definition erases_key (r : out (St box) nat) s lk nh ls (m : list node) : Prop :=
  match r with
  | Ret n s' => n = length m /\ quiet throws (calls s) (calls s') /\ erased_all s s' nh ls m
  | Exn s' => blown throws (calls s) (calls s') /\ as_before s s' lk nh ls
  | UB => False
  end.
(** a node handle with the first of them, or an empty one *)
Definition extracts_key (r : out (St box) (option node)) s lk nh ls (m : list node) : Prop :=
  match r with
  | Ret None s' => m = [] /\ quiet throws (calls s) (calls s') /\ as_before s s' lk nh ls
  | Ret (Some x) s' => (exists m', m = x :: m') /\ quiet throws (calls s) (calls s') /\
      reachable s' (remove Nat.eq_dec x lk) (x :: nh) /\ memory s' = memory s /\
      sequences s' = Some (map (remove Nat.eq_dec x) ls)
  | Exn s' => blown throws (calls s) (calls s') /\ as_before s s' lk nh ls
  | UB => False
  end.

Hypothesis St_ : setting pick hd all.
Lemma adv_before s lk nh ls n : reachable s lk nh -> sequences s = Some ls -> quiet throws (calls s) n \/ blown throws (calls s) n ->
  as_before s (adv box n s) lk nh ls.
Proof.
  intros R Sq Q. unfold as_before. rewrite (adv_memory throws dv cs1 cs2 this St_), (adv_count throws dv cs1 cs2 this St_). splits; auto.
  - destruct Q; [eapply reach_quiet|eapply reach_blown]; eauto.
  - eapply adv_seq; eauto.
Qed.
(** erasing a segment, found by queries *)
Lemma erase_seg s lk nh ls a m b n : reachable s lk nh -> sequences s = Some ls -> quiet throws (calls s) n ->
  nth_error ls (length cs1) = Some (a ++ m ++ b) ->
  forall f, count (adv box n s) <= f ->
  erases_key ((r <- erase_loop throws pick hd cs1 cs2 this f (List.hd hd (m ++ b)) (List.hd hd b) 0 ;; ret (snd r)) (adv box n s)) s lk nh ls m.
Proof.
  intros R Sq Q Nt f Lf. assert (R1 := reach_quiet dv cs1 cs2 this St_ R Q). assert (Sq1 := adv_seq dv cs1 cs2 this St_ n R Sq). set (s1 := adv box n s) in *.
  unfold bind. assert (W := @erase_loop_ok V throws pick dv hd cs1 cs2 this St_ m f s1 lk nh ls a b 0 R1 Sq1 Nt).
  assert (H : Focus.holds throws pick hd cs1 cs2 this s1 (a ++ m ++ b)) by (exists ls; auto). destruct (open_at dv St_ R1 H) as (_ & _ & _ & _ & _ & _ & _ & C & _).
  assert (Le : length m <= f). { rewrite C, !app_length in Lf. lia. } specialize (W Le).
  destruct (erase_loop _ _ _ _ _ _ _ _ _ _ s1) as [r s'|s'|]; try tauto. destruct W as (-> & R' & (G1 & G2 & G3 & G4) & _). cbn [snd]. unfold ret. unfold erases_key.
  rewrite G4. unfold s1 in *. rewrite (adv_calls throws dv cs1 cs2 this St_), (adv_memory throws dv cs1 cs2 this St_) in *. splits; auto. unfold erased_all. splits; auto.
Qed.
Lemma extract_seg s lk nh ls x n m' : reachable s lk nh -> sequences s = Some ls -> quiet throws (calls s) n -> In x lk ->
  extracts_key (c_extract box x (adv box n s)) s lk nh ls (x :: m').
Proof.
  intros R Sq Q Ix. assert (R1 := reach_quiet dv cs1 cs2 this St_ R Q). assert (Sq1 := adv_seq dv cs1 cs2 this St_ n R Sq).
  assert (W := C48_extract dv St_ x R1 Sq1 Ix). destruct (c_extract box x (adv box n s)) as [h s'|s'|] eqn:E; try tauto.
  destruct W as (-> & M & C & _ & Sq'). unfold extracts_key. rewrite C, M, (adv_calls throws dv cs1 cs2 this St_), (adv_memory throws dv cs1 cs2 this St_). splits; eauto.
  refine (@reach_ret V throws pick hd box _ _ _ _ (adv box n s) lk nh (Extract _ _ x) Nothing s' R1 Ix _). cbn [exec]. unfold bind. now rewrite E.
Qed.

(** erase(position) and erase(first,last), of any index *)
Theorem C52_erase s lk nh ls l1 x l2 : reachable s lk nh -> sequences s = Some ls -> nth_error ls (length cs1) = Some (l1 ++ x :: l2) ->
  match erase_at throws pick hd cs1 cs2 this x s with
  | Ret y s' => y = List.hd hd l2 /\ calls s' = calls s /\ erased_all s s' nh ls [x]
  | _ => False
  end.
Proof.
  intros R Sq Nt. assert (W := erase_at_ok dv cs1 cs2 this St_ l1 x l2 R Sq Nt). destruct (erase_at _ _ _ _ _ _ _ s) as [y s'|s'|]; auto.
  destruct W as (-> & R' & (A & B & C & D) & _). unfold erased_all. splits; eauto.
Qed.
Theorem C52_erase_range s lk nh ls a seg b : reachable s lk nh -> sequences s = Some ls ->
  nth_error ls (length cs1) = Some (a ++ seg ++ b) ->
  match erase_range throws pick hd cs1 cs2 this (List.hd hd (seg ++ b)) (List.hd hd b) s with
  | Ret y s' => y = List.hd hd b /\ calls s' = calls s /\ erased_all s s' nh ls seg
  | _ => False
  end.
Proof.
  intros R Sq Nt. assert (W := erase_range_ok dv cs1 cs2 this St_ a seg b R Sq Nt). destruct (erase_range _ _ _ _ _ _ _ _ s) as [y s'|s'|]; auto.
  destruct W as (-> & R' & (A & B & C & D) & _). unfold erased_all. splits; eauto.
Qed.
End Outcome.

Section Ordered.
Variable V : Type.
Variable throws : nat -> bool.
Variable pick : list node -> node.
Variable dv : V.
Variable hd : node.
Variables cs1 cs2 : list (code V).
Variable K : Type.
Variable key : V -> K.
Variable lt : K -> K -> bool.
Variables uniq rk : bool.
Variable junk : OrdModel.cell.
Notation this := (Ordered key lt uniq rk junk).
Notation all := (Focus.all cs1 cs2 this).
Notation box := (box throws pick hd all).
Notation sequences := (@sequences V throws pick hd all).
Notation value_of := (@value_of V throws pick dv hd all).
Notation calls := (@calls V throws pick hd all).
Notation reachable := (@reachable V throws pick hd all).
Notation sup := (stack throws pick hd (mem_world V) cs2).
Notation this_of := (@down V throws pick hd (mem_world V) (this :: cs2) cs1).
Notation of_index := (@Focus.of_index V throws pick hd cs1 cs2 this _).
Notation eloop := (erase_loop throws pick hd cs1 cs2 this).
Notation erases := (@erases_key V throws pick hd cs1 cs2 this).
Notation extracts := (@extracts_key V throws pick hd cs1 cs2 this).
Implicit Types (s : St box) (lk nh l : list node) (ls : list (list node)) (k : K).

(** erase(key), ord_index_impl.hpp:400-410 *)
Definition o_erase_key k : M (St box) nat :=
  p <- of_index (OrdIdx.equal_range throws key hd sup (fun a => lt a k) (fun a => lt k a)) ;;
  n <- size box ;; r <- eloop n (fst p) (snd p) 0 ;; ret (snd r).
(** extract(key), ord_index_impl.hpp:383-388: the position, if there is one, and the extraction *)
Definition o_place k : M (OrdModel.heap * St sup) (option node) :=
  p <- OrdIdx.lower_bound throws key hd sup (fun a => lt a k) ;;
  if p =? hd then ret None
  else b <- OrdIdx.test throws key sup (fun a => lt k a) p ;; ret (if b : bool then None else Some p).
Definition o_extract_key k : M (St box) (option node) :=
  p <- of_index (o_place k) ;;
  match p with None => ret None | Some x => c_extract box x end.

Hypothesis St_ : setting pick hd all.
(** the elements whose key is equivalent to [k] *)
Definition same_key s k l : list node := filter (fun x => negb (lt (key (value_of s x)) k) && negb (lt k (key (value_of s x)))) l.

Lemma ord_query A (m : M (OrdModel.heap * St sup) A) s P : @OrdProps.answers V throws pick hd cs1 cs2 K key lt uniq rk junk A s m P ->
  match of_index m s with
  | Ret a s' => P a /\ exists n, quiet throws (calls s) n /\ s' = adv box n s
  | Exn s' => exists n, blown throws (calls s) n /\ s' = adv box n s
  | UB => False
  end.
Proof.
  intros H. apply query. unfold OrdProps.answers in H. change (OrdProps.all cs1 cs2 key lt uniq rk junk) with all in H.
  unfold OrdProps.this in H. unfold Focus.all in *. destruct (m (this_of s)) as [a (h, t)|(h, t)|]; auto.
  - destruct H as (Pa & n & Q & Eh & Et). split; auto. exists n. split; auto. cbn in Eh, Et. subst. now destruct (this_of s).
  - destruct H as (n & Q & Eh & Et). exists n. split; auto. cbn in Eh, Et. subst. now destruct (this_of s).
Qed.
(** the elements with a key are a segment *)
Lemma segment s lk nh l k : reachable s lk nh -> Focus.holds throws pick hd cs1 cs2 this s l ->
  exists a m b, l = a ++ m ++ b /\ same_key s k l = m /\
    first hd (fun x => negb (lt (key (value_of s x)) k)) l = List.hd hd (m ++ b) /\
    first hd (fun x => lt k (key (value_of s x))) l = List.hd hd b /\
    (forall x, In x m -> lt k (key (value_of s x)) = false) /\ (forall x, In x b -> lt k (key (value_of s x)) = true).
Proof.
  intros R H. destruct (OrdProps.open_this dv St_ R H) as (t & hs & TA & RB & E & Lv & _ & Cg & _ & Sr).
  change (OrdProps.all cs1 cs2 key lt uniq rk junk) with all in Sr.
  assert (C := OrdProps.compatible_key cs1 cs2 key lt uniq rk junk St_ k).
  assert (Cu := @OrdProps.sorted_cut V pick hd cs1 cs2 K key lt uniq rk junk St_ _ _ _ _ C Sr).
  destruct (cut_split Cu) as (a & m & b & -> & F1 & F2 & F3 & F4 & F5). rewrite Forall_forall in *. exists a, m, b. splits; auto.
  - unfold same_key. rewrite !filter_app. rewrite (@filter_none _ _ a), (@filter_all _ _ m), (@filter_none _ _ b); rewrite ?app_nil_r; auto; apply Forall_forall; intros x I.
    + now rewrite (F3 x I), andb_false_r.
    + now destruct (F2 x I) as (-> & ->).
    + now rewrite (F1 x I).
  - apply OrdProps.first_at; intros x I; [now rewrite (F1 x I)|now rewrite (F5 x I)].
  - rewrite app_assoc. apply OrdProps.first_at; auto.
  - intros x I. now destruct (F2 x I).
Qed.
Theorem C52_ordered_erase s lk nh ls l k : reachable s lk nh -> sequences s = Some ls -> nth_error ls (length cs1) = Some l ->
  erases (o_erase_key k s) s lk nh ls (same_key s k l).
Proof.
  intros R Sq Nt. assert (H : Focus.holds throws pick hd cs1 cs2 this s l) by (exists ls; auto).
  destruct (segment k R H) as (a & m & b & -> & Em & Lo & Hi & _ & _). rewrite Em.
  assert (C := OrdProps.compatible_key cs1 cs2 key lt uniq rk junk St_ k).
  assert (W := @ord_query _ _ _ _ (OrdProps.C14_equal_range dv St_ R H C)). change (OrdProps.all cs1 cs2 key lt uniq rk junk) with all in W. unfold o_erase_key, bind.
  destruct (of_index _ s) as [p s1|s1|]; try tauto.
  - destruct W as (-> & n & Q & ->). cbn [fst snd]. rewrite Lo, Hi. unfold size.
    exact (@erase_seg V throws pick dv hd cs1 cs2 this St_ s lk nh ls a m b n R Sq Q Nt _ (Nat.le_refl _)).
  - destruct W as (n & Q & ->). unfold erases_key. rewrite (adv_calls throws dv cs1 cs2 this St_). split; auto. eapply adv_before; eauto.
Qed.
Lemma place_ok s lk nh l k : reachable s lk nh -> Focus.holds throws pick hd cs1 cs2 this s l ->
  @OrdProps.answers V throws pick hd cs1 cs2 K key lt uniq rk junk _ s (o_place k) (fun r => r = hd_error (same_key s k l)).
Proof.
  intros R H. destruct (segment k R H) as (a & m & b & El & Em & Lo & Hi & Fm & Fb). rewrite Em.
  assert (C := OrdProps.compatible_key cs1 cs2 key lt uniq rk junk St_ k).
  destruct (OrdProps.open_this dv St_ R H) as (t & hs & TA & RB & E & Lv & _ & Cg & _ & Sr).
  apply (OrdProps.ro_answers dv cs1 cs2 key lt uniq rk junk St_). subst l. assert (N := nodup_this dv St_ R H).
  assert (Vl : value_of s = val dv (bget sup (snd (this_of s)))) by apply OrdProps.vals.
  change (OrdProps.all cs1 cs2 key lt uniq rk junk) with all in Sr. change (OrdProps.this key lt uniq rk junk) with this in TA, Lv, Cg |- *.
  assert (Cu := @OrdProps.sorted_cut V pick hd cs1 cs2 K key lt uniq rk junk St_ _ _ _ _ C Sr).
  assert (O2 := OrdProps.sup_ok throws dv cs1 cs2 key lt uniq rk junk St_). rewrite Vl in Cu, Lo, Fm, Fb.
  unfold o_place. eapply OrdLook.Ro_bind.
  - eapply (lower_bound_ok key O2 _ TA).
    + intros x I. apply Lv. now rewrite E in I.
    + apply Nat.eq_le_incl. refine (eq_trans (OrdTree.size_inorder _) (eq_trans _ (eq_sym Cg))). congruence.
    + rewrite E. exact (c_below Cu).
  - cbn beta. intros r ->. rewrite E, Lo. destruct (m ++ b) as [|x mb] eqn:Emb; cbn [List.hd].
    + rewrite Nat.eqb_refl. apply app_eq_nil in Emb as (-> & _). now apply OrdLook.Ro_ret.
    + assert (Ix : In x (a ++ x :: mb)) by (rewrite in_app_iff; cbn; auto).
      destruct (Nat.eqb_spec x hd) as [->|_]; [exfalso; now apply NoDup_cons_iff in N as (N & _)|].
      eapply (test_spec key O2); [now apply Lv|]. apply OrdLook.Ro_ret. destruct m as [|y m]; cbn in Emb.
      * subst b. now rewrite Fb by now left.
      * injection Emb as -> _. now rewrite Fm by now left.
Qed.
Theorem C52_ordered_extract s lk nh ls l k : reachable s lk nh -> sequences s = Some ls -> nth_error ls (length cs1) = Some l ->
  extracts (o_extract_key k s) s lk nh ls (same_key s k l).
Proof.
  intros R Sq Nt. assert (H : Focus.holds throws pick hd cs1 cs2 this s l) by (exists ls; auto).
  assert (W := @ord_query _ _ _ _ (place_ok k R H)). unfold o_extract_key, bind.
  destruct (of_index _ s) as [p s1|s1|]; try tauto.
  - destruct W as (-> & n & Q & ->). destruct (same_key s k l) as [|x m'] eqn:Em; cbn [hd_error].
    + unfold ret, extracts_key. rewrite (adv_calls throws dv cs1 cs2 this St_). splits; auto. eapply adv_before; eauto.
    + eapply extract_seg; eauto. eapply Permutation_in; [eapply (perm_this dv St_ R H)|].
      assert (I : In x (same_key s k l)) by (rewrite Em; now left). now apply filter_In in I.
  - destruct W as (n & Q & ->). unfold extracts_key. rewrite (adv_calls throws dv cs1 cs2 this St_). split; auto. eapply adv_before; eauto.
Qed.
End Ordered.

Section Hashed.
Variable V : Type.
Variable throws : nat -> bool.
Variable pick : list node -> node.
Variable dv : V.
Variable hd : node.
Variables cs1 cs2 : list (code V).
Variable K : Type.
Variable key : V -> K.
Variable eq : K -> K -> bool.
Variable hash : K -> nat.
Variable uniq : bool.
Variable jh : bptr * bptr.
Variable n0 : nat.
Variable pl : policy.
Notation this := (Hashed key eq hash uniq jh n0 pl).
Notation all := (Focus.all cs1 cs2 this).
Notation box := (box throws pick hd all).
Notation sequences := (@sequences V throws pick hd all).
Notation value_of := (@value_of V throws pick dv hd all).
Notation calls := (@calls V throws pick hd all).
Notation reachable := (@reachable V throws pick hd all).
Notation sup := (stack throws pick hd (mem_world V) cs2).
Notation this_of := (@down V throws pick hd (mem_world V) (this :: cs2) cs1).
Notation of_index := (@Focus.of_index V throws pick hd cs1 cs2 this _).
Notation eloop := (erase_loop throws pick hd cs1 cs2 this).
Notation answers := (@HashProps.answers V throws pick hd cs1 cs2 K key eq hash uniq jh n0 pl).
Notation erases := (@erases_key V throws pick hd cs1 cs2 this).
Notation extracts := (@extracts_key V throws pick hd cs1 cs2 this).
Implicit Types (s : St box) (lk nh l : list node) (ls : list (list node)) (k : K).

(** the search of erase(key), hashed_index.hpp:380-384: the first element with the key and the end of the group *)
Definition h_place k : M (hst * St sup) (option (node * node)) :=
  x <- find_first throws key uniq sup (hash k) (eq k) ;;
  if x =? null then ret None
  else y <- end_of_range throws key eq uniq sup x ;; ret (Some (x, y)).
(** erase(key), hashed_index.hpp:376-398; the body of the do-while loop, 387-391, is that of erase(position) *)
Definition h_erase_key k : M (St box) nat :=
  p <- of_index (h_place k) ;;
  match p with
  | None => ret 0
  | Some (x, y) => n <- size box ;; z <- erase_at throws pick hd cs1 cs2 this x ;; r <- eloop n z y 1 ;; ret (snd r)
  end.
(** extract(key), hashed_index.hpp:359-364 *)
Definition h_extract_key k : M (St box) (option node) :=
  x <- of_index (HashIdx.find throws key uniq hd sup (hash k) (eq k)) ;;
  if x =? hd then ret None else c_extract box x.

Hypothesis St_ : setting pick hd all.
Lemma hash_query A (m : M (hst * St sup) A) s P : answers s m P ->
  match of_index m s with
  | Ret a s' => P a /\ exists n, quiet throws (calls s) n /\ s' = adv box n s
  | Exn s' => exists n, blown throws (calls s) n /\ s' = adv box n s
  | UB => False
  end.
Proof.
  intros H. apply query. unfold HashProps.answers in H.
  unfold Focus.all in *. destruct (m (this_of s)) as [a (h, t)|(h, t)|]; auto.
  - destruct H as (Pa & n & Q & Eh & Et). split; auto. exists n. split; auto. cbn in Eh, Et. subst. now destruct (this_of s).
  - destruct H as (n & Q & Eh & Et). exists n. split; auto. cbn in Eh, Et. subst. now destruct (this_of s).
Qed.
Notation with_key s k l := (filter (fun y => eq k (key (value_of s y))) l).
Lemma h_place_ok s lk nh l k : reachable s lk nh -> Focus.holds throws pick hd cs1 cs2 this s l ->
  answers s (h_place k) (fun r =>
    match with_key s k l with
    | [] => r = None
    | x :: m => exists a b, l = a ++ (x :: m) ++ b /\ r = Some (x, List.hd hd b)
    end).
Proof.
  intros R H. destruct (HashProps.open_hash dv St_ R H) as (t & sp & I & G & Op). apply (HashProps.op_answers St_ Op).
  change (with_key s k l) with (HashProps.matching throws pick dv hd cs1 cs2 key eq hash uniq jh n0 pl s (eq k) l).
  rewrite <- (HashProps.hits_eq (eq k) Op).
  assert (SO := HashProps.sup_ok throws dv cs1 cs2 key eq hash uniq jh n0 pl St_).
  assert (HO := HashProps.this_heq cs1 cs2 key eq hash uniq jh n0 pl St_).
  assert (F := @find_first_ok _ _ _ _ _ _ _ _ _ _ _ _ _ _ SO HO _ _ _ [] (HashProps.op_wf Op) (HashProps.op_hs Op) (HashProps.op_uq Op) (HashProps.op_lv Op) (HashProps.size_le Op) _ (HashProps.op_cl Op) _ _ (HashProps.op_pos Op) (picks_eq HO k)).
  unfold h_place. eapply HashPoint.Ro_bind; [exact F|]. intros x [E|G1 i g G2 E Hh Ng Nn Ee En].
  - cbn [Nat.eqb]. rewrite E. now apply HashPoint.Ro_ret.
  - rewrite (proj2 (Nat.eqb_neq _ _) Nn). eapply HashPoint.Ro_bind.
    + exact (proj2 (@range_ends _ _ _ _ _ _ _ _ _ _ _ _ _ _ SO HO _ _ _ [] (HashProps.op_wf Op) (HashProps.op_hs Op) (HashProps.op_uq Op) (HashProps.op_lv Op) (HashProps.size_le Op) _ (HashProps.op_cl Op) G1 i g G2 E)).
    + cbn beta. intros y ->. apply HashPoint.Ro_ret. rewrite Hh, En. destruct g as [|z m]; [easy|]. exists (HashLay.elems G1), (HashLay.elems G2).
      split; auto. rewrite <- (HashProps.op_el Op). exact Ee.
Qed.
Theorem C52_hashed_erase s lk nh ls l k : reachable s lk nh -> sequences s = Some ls -> nth_error ls (length cs1) = Some l ->
  erases (h_erase_key k s) s lk nh ls (with_key s k l).
Proof.
  intros R Sq Nt. assert (H : Focus.holds throws pick hd cs1 cs2 this s l) by (exists ls; auto).
  assert (W := @hash_query _ _ _ _ (h_place_ok k R H)). unfold h_erase_key, bind at 1.
  destruct (of_index _ s) as [p s1|s1|]; try tauto.
  - destruct W as (Ep & n & Q & ->). destruct (with_key s k l) as [|x m] eqn:Em.
    + subst p. unfold ret, erases_key. rewrite (adv_calls throws dv cs1 cs2 this St_). splits; auto.
      destruct (@adv_before V throws pick dv hd cs1 cs2 this St_ s lk nh ls n R Sq (or_introl Q)) as (A & B & _ & D).
      unfold erased_all. splits; eauto; [|now intros x []|intros x _; now rewrite B]. rewrite D. f_equal. symmetry.
      erewrite map_ext; [apply map_id|]. intros l0. cbn. induction l0; cbn; congruence.
    + destruct Ep as (a & b & -> & ->).
      assert (N : (x =? List.hd hd b) = false).
      { apply Nat.eqb_neq. assert (N := nodup_this dv St_ R H). destruct b as [|y b]; cbn [List.hd]; intros ->.
        - apply NoDup_cons_iff in N as (N & _). apply N. rewrite !in_app_iff. cbn. auto.
        - apply NoDup_cons_iff in N as (_ & N). apply NoDup_app_iff in N as (_ & N & _). cbn in N. apply NoDup_cons_iff in N as (N & _). apply N. rewrite in_app_iff. cbn. auto. }
      assert (E := @erase_seg V throws pick dv hd cs1 cs2 this St_ s lk nh ls a (x :: m) b n R Sq Q Nt (S (cget box (adv box n s)))).
      cbn [app List.hd erase_loop] in E. rewrite N in E. unfold bind, size in *. destruct (erase_at _ _ _ _ _ _ _ _) as [z s2|s2|]; apply E; unfold Client.count; auto.
  - destruct W as (n & Q & ->). unfold erases_key. rewrite (adv_calls throws dv cs1 cs2 this St_). split; auto. eapply adv_before; eauto.
Qed.
Theorem C52_hashed_extract s lk nh ls l k : reachable s lk nh -> sequences s = Some ls -> nth_error ls (length cs1) = Some l ->
  extracts (h_extract_key k s) s lk nh ls (with_key s k l).
Proof.
  intros R Sq Nt. assert (H : Focus.holds throws pick hd cs1 cs2 this s l) by (exists ls; auto).
  assert (W := @hash_query _ _ _ _ (HashProps.C23_find dv St_ R H (HashProps.own_key cs1 cs2 key eq hash uniq jh n0 pl St_ k))). unfold h_extract_key, bind.
  change (HashProps.matching throws pick dv hd cs1 cs2 key eq hash uniq jh n0 pl s (eq k) l) with (with_key s k l) in W.
  destruct (of_index _ s) as [p s1|s1|]; try tauto.
  - destruct W as (-> & n & Q & ->). destruct (with_key s k l) as [|x m'] eqn:Em; cbn [List.hd].
    + rewrite Nat.eqb_refl. unfold ret, extracts_key. rewrite (adv_calls throws dv cs1 cs2 this St_). splits; auto. eapply adv_before; eauto.
    + assert (I : In x (with_key s k l)) by (rewrite Em; now left). apply filter_In in I as (I & _).
      destruct (Nat.eqb_spec x hd) as [->|_].
      * exfalso. assert (N := nodup_this dv St_ R H). now apply NoDup_cons_iff in N.
      * eapply extract_seg; eauto. eapply Permutation_in; [eapply (perm_this dv St_ R H)|auto].
  - destruct W as (n & Q & ->). unfold extracts_key. rewrite (adv_calls throws dv cs1 cs2 this St_). split; auto. eapply adv_before; eauto.
Qed.
End Hashed.

(** ** Cases *)
(** the third index of [some_state] has the values 5 6 7 8 at the nodes 4 2 5 3, of keys 2 3 3 4; the 24th call throws and 18 were made *)
Notation halves := (fun v : nat => v / 2).
Notation two := [ContEx.by_id true; Sequenced nat 0 0].
Notation half_erase k := (o_erase_key ContEx.at23 ContEx.next_node 1 two [RandomAccess nat 0] halves Nat.ltb false true ContEx.junk0 k).
Notation half_extract k := (o_extract_key ContEx.at23 ContEx.next_node 1 two [RandomAccess nat 0] halves Nat.ltb false true ContEx.junk0 k).
Definition got {S A} (o : out S A) : option A := match o with Ret a _ => Some a | _ => None end.
Example half_hyp : setting ContEx.next_node 1 ContEx.four /\
  reachable ContEx.at23 ContEx.next_node 1 ContEx.four ContEx.some_state [5; 4; 3; 2] [] /\
  sequences ContEx.at23 ContEx.next_node 1 ContEx.four ContEx.some_state = Some [[4; 2; 5; 3]; [2; 3; 4; 5]; [4; 2; 5; 3]; [2; 3; 4; 5]] /\
  nth_error [[4; 2; 5; 3]; [2; 3; 4; 5]; [4; 2; 5; 3]; [2; 3; 4; 5]] 2 = Some ([4] ++ [2; 5] ++ [3]) /\
  same_key ContEx.at23 ContEx.next_node 0 1 two [RandomAccess nat 0] halves Nat.ltb false true ContEx.junk0 ContEx.some_state 3 [4; 2; 5; 3] = [2; 5].
Proof. splits; [exact ContEx.four_ok|exact ContEx.some_reach|exact ContEx.some_sequences|reflexivity|vm_compute; reflexivity]. Qed.
Example half_keys :
  got (half_erase 3 ContEx.some_state) = Some 2 /\ ContEx.seen (half_erase 3 ContEx.some_state) = (0, Some [[4; 3]; [3; 4]; [4; 3]; [3; 4]]) /\
  got (half_erase 9 ContEx.some_state) = Some 0 /\
  got (half_extract 3 ContEx.some_state) = Some (Some 2) /\ got (half_extract 1 ContEx.some_state) = Some None.
Proof. vm_compute. auto 10. Qed.
(** the hashed index has the sequence 6 3 5 2 4, of keys 4 4 3 3 2 *)
Notation up2 := [ContEx.by_id false; ContEx.hash_id true].
Notation hash_erase k := (h_erase_key ContEx.at60 ContEx.next_node 1 [] up2 halves Nat.eqb (fun q => 100 - q) false ContEx.jh0 0 ContEx.pol3 k).
Notation hash_extract k := (h_extract_key ContEx.at60 ContEx.next_node 1 [] up2 halves Nat.eqb (fun q => 100 - q) false ContEx.jh0 0 ContEx.pol3 k).
Definition hash_seen {A} (o : out (St ContEx.hash_box) A) : option (list (list node)) :=
  match o with Ret _ s => sequences ContEx.at60 ContEx.next_node 1 ContEx.three s | _ => None end.
Example hash_hyp : setting ContEx.next_node 1 ContEx.three /\
  reachable ContEx.at60 ContEx.next_node 1 ContEx.three ContEx.hash_state [6; 5; 4; 3; 2] [] /\
  sequences ContEx.at60 ContEx.next_node 1 ContEx.three ContEx.hash_state = Some [[6; 3; 5; 2; 4]; [4; 2; 5; 3; 6]; [2; 3; 4; 5; 6]] /\
  Focus.all [] up2 (@Hashed nat nat halves Nat.eqb (fun k => 100 - k) false ContEx.jh0 0 ContEx.pol3) = ContEx.three.
Proof. splits; [exact ContEx.three_ok|exact ContEx.hash_reach|exact ContEx.hash_sequences|reflexivity]. Qed.
Example hash_keys :
  got (hash_erase 4 ContEx.hash_state) = Some 2 /\ hash_seen (hash_erase 4 ContEx.hash_state) = Some [[5; 2; 4]; [4; 2; 5]; [2; 4; 5]] /\
  got (hash_erase 9 ContEx.hash_state) = Some 0 /\
  got (hash_extract 3 ContEx.hash_state) = Some (Some 5) /\ got (hash_extract 1 ContEx.hash_state) = Some None.
Proof. vm_compute. auto 10. Qed.

Print Assumptions C52_erase.
Print Assumptions C52_erase_range.
Print Assumptions C52_ordered_erase.
Print Assumptions C52_ordered_extract.
Print Assumptions C52_hashed_erase.
Print Assumptions C52_hashed_extract.
