(** C23-C26, C28: hashed indices of containers with any other indices. *)
From Coq Require Import NArith.
From Verif Require Import Prelude Layer LayerBase HashModel HashHeap HashLay HashSpec HashSeq HashIdx HashPoint HashLayer HashRehash HashOk
  Stack View Container ContOk Iops Up Down History ContSpec Client ContEx ContProps Focus HashExact.
Set Implicit Arguments.
Local Arguments bcount : simpl never.

(** ** C28 *)
(** the smallest tabulated size not below [n], or the largest one *)
Theorem C28_size n : In (bucket_size_for n) sizes /\
  (forall m, In m sizes -> (n <= m)%N -> (n <= bucket_size_for n <= m)%N) /\
  ((forall m, In m sizes -> (m < n)%N) -> forall m, In m sizes -> (m <= bucket_size_for n)%N).
Proof.
  assert (Srt : StronglySorted N.lt sizes).
  { unfold sizes. repeat (constructor; [|repeat (constructor; [reflexivity|]); constructor]). constructor. }
  assert (G : forall l, StronglySorted N.lt l ->
    lower_bound l n <= length l /\ (forall m, In m l -> (n <= m)%N -> lower_bound l n < length l) /\
    (lower_bound l n < length l -> (n <= nth (lower_bound l n) l 53)%N /\ forall m, In m l -> (n <= m)%N -> (nth (lower_bound l n) l 53 <= m)%N) /\
    (forall m, In m l -> (m <= last l 53)%N)).
  { induction 1 as [|x l S1 IH F]; cbn [lower_bound length].
    - splits; auto; easy.
    - destruct IH as (I1 & I2 & I3 & I4). rewrite Forall_forall in F.
      assert (Lt : forall m, In m (x :: l) -> (m <= last (x :: l) 53)%N).
      { destruct l as [|y l]; [intros m [<-|[]]; cbn; lia|]. intros m [<-|Hm]; [|exact (I4 m Hm)].
        assert (H1 := F y (or_introl eq_refl)). assert (H2 := I4 y (or_introl eq_refl)). change (last (x :: y :: l) 53%N) with (last (y :: l) 53%N). lia. }
      destruct (N.ltb_spec x n) as [H|H].
      + splits; auto; [lia| |].
        * intros m [<-|Hm] Le; [lia|]. specialize (I2 m Hm Le). lia.
        * intros Lx. assert (Lx' : lower_bound l n < length l) by lia. destruct (I3 Lx') as (A & B). cbn [nth]. split; auto. intros m [<-|Hm] Le; [lia|auto].
      + splits; auto; [lia|lia|]. intros _. cbn [nth]. split; auto. intros m [<-|Hm] Le; [lia|]. specialize (F m Hm). lia. }
  destruct (G sizes Srt) as (G1 & G2 & G3 & G4).
  assert (Ls : nth (length sizes - 1) sizes 53%N = last sizes 53%N) by reflexivity.
  unfold bucket_size_for, size_index. destruct (Nat.eqb_spec (lower_bound sizes n) (length sizes)) as [E|E]; rewrite ?E.
  - splits.
    + apply nth_In. cbn. lia.
    + intros m Hm Le. specialize (G2 m Hm Le). lia.
    + intros _ m Hm. rewrite Ls. auto.
  - assert (Lx : lower_bound sizes n < length sizes) by lia. destruct (G3 Lx) as (A & B). splits.
    + now apply nth_In.
    + intros m Hm Le. split; auto.
    + intros F m Hm. exfalso. assert (H := F _ (nth_In sizes 53%N Lx)). lia.
Qed.
Theorem C28_position n h : position h (bcount n) < bcount n.
Proof. unfold position. apply Nat.mod_upper_bound. assert (H := bcount_pos n). lia. Qed.
Example C28_some : bucket_size_for 0 = 53%N /\ bucket_size_for 53 = 53%N /\ bucket_size_for 54 = 97%N /\ bucket_size_for 100000 = 196613%N /\
  bucket_size_for 18446744073709551615 = 18446744073709551557%N /\ position 1000 (bcount 60) = 30.
Proof. vm_compute. auto 10. Qed.
Lemma bcount_ge n m : In m sizes -> (N.of_nat n <= m)%N -> n <= bcount n.
Proof. intros Hm Le. unfold bcount. destruct (C28_size (N.of_nat n)) as (_ & H & _). specialize (H m Hm Le). lia. Qed.
(** the largest number of buckets *)
Definition biggest : N := last sizes 0%N.
Lemma biggest_in : In biggest sizes.
Proof. unfold biggest, sizes. cbn [last]. repeat first [left; reflexivity|right]. Qed.
Lemma sizes_big m : In m sizes -> (m <= biggest)%N.
Proof. unfold sizes. intros H. repeat (destruct H as [<-|H]; [vm_compute; discriminate|]). destruct H. Qed.
Lemma bcount_big n : (N.of_nat n <= biggest)%N -> n <= bcount n.
Proof. intros Le. apply bcount_ge with (m := biggest); auto. apply biggest_in. Qed.

(** The number of buckets asked for [m] elements is enough for them. *)
Definition sound (p : policy) : Prop := forall m k, want p m <= k -> m <= load p k.
(** maximum load factor a/b without roundings *)
Definition ratio (a b : nat) : policy := mkP (fun k => k * a / b) (fun m => 1 + m * b / a) (fun m => (m * b + (a - 1)) / a).
Lemma ratio_sound a b : 0 < a -> 0 < b -> sound (ratio a b).
Proof.
  intros A B m k H. unfold ratio in *. cbn in *. apply Nat.div_le_lower_bound; [lia|].
  assert (D := Nat.mod_upper_bound (m * b) a). assert (E := Nat.div_mod (m * b) a). nia.
Qed.

Section Props.
Variable V : Type.
Variable throws : nat -> bool.
Variable pick : list node -> node.
Variable dv : V.
Variable hd : node.
(** the indices before and after the hashed index looked at *)
Variables cs1 cs2 : list (code V).
Variable K : Type.
Variable key : V -> K.
Variable eq : K -> K -> bool.
Variable hash : K -> nat.
Variable uniq : bool.
Variable jh : bptr * bptr.
Variable n0 : nat.
Variable pl : policy.
Notation this := (Hashed key eq hash uniq jh n0 pl).
Notation all := (all cs1 cs2 this).

Notation box := (box throws pick hd all).
Notation sequences := (@sequences V throws pick hd all).
Notation value_of := (@value_of V throws pick dv hd all).
Notation memory := (@memory V throws pick hd all).
Notation calls := (@calls V throws pick hd all).
Notation count_of := (@Client.count V throws pick hd all).
Notation reachable := (@reachable V throws pick hd all).
Notation setting := (setting pick hd all).
Notation sup := (stack throws pick hd (mem_world V) cs2).   (* the super of the index *)
Notation this_of := (@down V throws pick hd (mem_world V) (this :: cs2) cs1).
Notation holds := (@holds V throws pick hd cs1 cs2 this).
Implicit Types (s : St box) (lk nh l : list node) (k : K).

(** [m], an operation of the index, changes nothing and, unless it throws, its result satisfies [P] *)
Definition answers {A} s (m : M (hst * St sup) A) (P : A -> Prop) : Prop :=
  let same n (st : hst * St sup) := fst st = fst (this_of s) /\ snd st = adv sup n (snd (this_of s)) in
  match m (this_of s) with
  | Ret a s1 => P a /\ exists n, quiet throws (calls s) n /\ same n s1
  | Exn s1 => exists n, blown throws (calls s) n /\ same n s1
  | UB => False
  end.

Hypothesis St_ : setting.
Notation S0 := (spec hd (fun _ (_ : unit) => False) (fun _ a => a) all).
Notation S2 := (spec hd (fun _ (_ : unit) => False) (fun _ a => a) cs2).
Notation rep2 := (srep throws pick hd (mem_world V) (fun _ (_ : unit) => True) (fun _ _ => False) (fun _ a => a) cs2).

Lemma sup_ok : OK throws pick dv hd sup S2 rep2 (@sshell V throws pick hd (mem_world V) unit (fun _ _ => True) cs2).
Proof. exact (Focus.sup_ok throws dv cs1 cs2 this St_). Qed.
Lemma this_heq : heq_ok eq hash.
Proof. exact (Focus.this_code_ok cs1 cs2 this St_). Qed.
Lemma bget_this s : bget sup (snd (this_of s)) = bget box s.
Proof. exact (down_bget throws pick hd (mem_world V) (this :: cs2) cs1 s). Qed.
Lemma vals s : value_of s = val dv (bget sup (snd (this_of s))).
Proof. exact (f_equal (val dv) (eq_sym (bget_this s))). Qed.
Lemma adv_self s : adv sup (calls s) (snd (this_of s)) = snd (this_of s).
Proof.
  unfold adv. assert (C : tk (bget sup (snd (this_of s))) = calls s) by exact (f_equal (@tk V) (bget_this s)).
  rewrite <- C. transitivity (bset sup (bget sup (snd (this_of s))) (snd (this_of s))); [|apply (o_gs sup_ok)].
  f_equal. now destruct (bget sup (snd (this_of s))).
Qed.
Lemma ro_answers A s (m : M (hst * St sup) A) P : @Ro V throws sup (fst (this_of s)) (snd (this_of s)) A m P -> answers s m P.
Proof.
  intros R. specialize (R (calls s)). unfold wp in R. rewrite adv_self in R. rewrite <- surjective_pairing in R.
  unfold answers. destruct (m (this_of s)) as [a s1|s1|]; auto.
  - destruct R as (Pa & n & Q & ->). eauto.
  - destruct R as (n & B & ->). eauto.
Qed.

(** what there is to know about the index *)
Record opened s lk l (t : hst) (sp : St sup) (I : list item) (G : list item) : Prop := mkOp {
  op_st : this_of s = (t, sp);
  op_el : elems I = l;
  op_tab : tabled (bc t);
  op_wf : wfi (bc t) I;
  op_hs : hs (hp t) (layout (arr t) (bc t) hd I ++ []);
  op_uq : uniq = true -> Forall (fun it => length (snd it) = 1) I;
  op_lv : forall x, In x (elems I) -> live (bget sup sp) x;
  op_cl : classes key eq hash uniq (val dv (bget sup sp)) (bc t) I G;
  op_hok : hok key eq hash uniq (val dv (bget sup sp)) (bc t, I);
  op_sz : cget sup sp = length l;
  op_perm : Permutation l lk;
  op_vals : value_of s = val dv (bget sup sp);
  op_head : look (mem (bget sup sp)) hd = Some None;
  op_calls : calls s = tk (bget sup sp) }.
Lemma op_pos s lk l t sp I G : opened s lk l t sp I G -> 0 < bc t.
Proof. intros Op. exact (tabled_pos (op_tab Op)). Qed.
Lemma open_hash s lk nh l : reachable s lk nh -> holds s l -> exists t sp I G, opened s lk l t sp I G.
Proof.
  intros R H. destruct (open_at dv St_ R H) as (a & Rp & El & Ok & Lv & P & _ & _ & Bg & Cg).
  destruct H as (ls & Sq & _). destruct (open dv St_ R Sq) as (a0 & G0 & _ & _). assert (Hd := i_hd (g_inv G0)). clear a0 G0.
  cbn [rep_of] in Rp. destruct a as ((n, I), a2). destruct Rp as ((E & Hn & W & U & Hs) & _). cbn [fst snd] in E, W, U, Hs, Ok, El.
  subst n. assert (Ok' := Ok). destruct Ok' as (G & CL). exists (fst (this_of s)), (snd (this_of s)), I, G.
  assert (Vs := vals s). cbn [layer_of hashed bget cget] in Bg, Cg.
  split; auto.
  - apply surjective_pairing.
  - now rewrite app_nil_r.
  - intros x X. refine (eq_ind_r (fun b => live b x) _ Bg). apply Lv. rewrite El. exact X.
  - rewrite <- Vs. exact CL.
  - rewrite <- Vs. exact Ok.
  - rewrite (bget_this s). exact Hd.
  - symmetry. exact (f_equal (@tk V) (bget_this s)).
Qed.

(** ** C23, C24 *)
(** the elements of [l] whose key satisfies [p]; those in bucket [i] of [n] *)
Definition matching s (p : K -> bool) l : list node := filter (fun y => p (key (value_of s y))) l.
Definition in_bucket s (n i : nat) l : list node := filter (fun y => hash (key (value_of s y)) mod n =? i) l.
(** [p] is equality with a key of hash [hk], which may be of another type *)
Definition compatible (p : K -> bool) (hk : nat) : Prop :=
  (forall k k', p k = true -> p k' = eq k k') /\ (forall k, p k = true -> hash k = hk).
Lemma own_key k : compatible (eq k) (hash k).
Proof. exact (picks_eq this_heq k). Qed.

Lemma size_le s lk l t sp I G : opened s lk l t sp I G -> length (elems I) <= Datatypes.S (cget sup sp).
Proof. intros Op. rewrite (op_el Op), (op_sz Op). lia. Qed.
Ltac look_up L Op :=
  refine (@L _ _ _ _ _ _ _ _ _ _ _ _ _ _ sup_ok this_heq _ _ _ [] (op_wf Op) (op_hs Op) (op_uq Op) (op_lv Op) (size_le Op) _ (op_cl Op) _ _ (op_pos Op) _).
Lemma hits_eq s lk l t sp I G p : opened s lk l t sp I G -> hits dv key sup sp I p = matching s p l.
Proof. intros Op. unfold hits, matching. now rewrite (op_el Op), (op_vals Op). Qed.
Lemma within_eq s lk l t sp I G i : opened s lk l t sp I G -> within dv key hash sup t sp I i = in_bucket s (bc t) i l.
Proof. intros Op. unfold within, in_bucket. now rewrite (op_el Op), (op_vals Op). Qed.
Lemma op_answers A s lk l t sp I G (m : M (hst * St sup) A) P : opened s lk l t sp I G -> @Ro V throws sup t sp A m P -> answers s m P.
Proof. intros Op R. apply ro_answers. now rewrite (op_st Op). Qed.

(** iteration visits every element once *)
Theorem C23_iteration s lk nh l : reachable s lk nh -> holds s l -> NoDup l /\ Permutation l lk.
Proof.
  intros R H. split; [|exact (perm_this dv St_ R H)]. assert (N := nodup_this dv St_ R H). now inversion N.
Qed.
Theorem C23_find s lk nh l p hk : reachable s lk nh -> holds s l -> compatible p hk ->
  answers s (HashIdx.find throws key uniq hd sup hk p) (fun r => r = List.hd hd (matching s p l)).
Proof.
  intros R H C. destruct (open_hash R H) as (t & sp & I & G & Op). apply (op_answers Op). rewrite <- (hits_eq _ Op). look_up find_ok Op. exact C.
Qed.
Theorem C23_contains s lk nh l p hk : reachable s lk nh -> holds s l -> compatible p hk ->
  answers s (contains throws key uniq hd sup hk p) (fun r => r = true <-> exists y, In y l /\ p (key (value_of s y)) = true).
Proof.
  intros R H C. destruct (open_hash R H) as (t & sp & I & G & Op). apply (op_answers Op). rewrite <- (op_el Op), (op_vals Op). look_up contains_ok Op. exact C.
Qed.
Theorem C23_count s lk nh l p hk : reachable s lk nh -> holds s l -> compatible p hk ->
  answers s (HashIdx.count throws key eq uniq sup hk p) (fun r => r = length (matching s p l)).
Proof.
  intros R H C. destruct (open_hash R H) as (t & sp & I & G & Op). apply (op_answers Op). rewrite <- (hits_eq _ Op). look_up count_ok Op. exact C.
Qed.
(** equal_range delimits the run of elements equivalent to the key *)
Theorem C23_C24_equal_range s lk nh l p hk : reachable s lk nh -> holds s l -> compatible p hk ->
  answers s (equal_range throws key eq uniq hd sup hk p) (fun r =>
    exists l1 l2, l = l1 ++ matching s p l ++ l2 /\
      r = match matching s p l with [] => (hd, hd) | y :: _ => (y, List.hd hd l2) end).
Proof.
  intros R H C. destruct (open_hash R H) as (t & sp & I & G & Op). apply (op_answers Op). rewrite <- (hits_eq _ Op), <- (op_el Op). look_up equal_range_ok Op. exact C.
Qed.
(** every element is in the bucket of the hash of its key, where local iteration finds it *)
Theorem C23_buckets s lk nh l : reachable s lk nh -> holds s l -> exists n, 0 < n /\
  answers s (bucket_count sup) (fun r => r = n) /\
  (forall k, answers s (bucket throws hash sup k) (fun r => r = hash k mod n)) /\
  forall i, i < n -> let b := in_bucket s n i l in
    (exists l1 l2, l = l1 ++ b ++ l2) /\
    answers s (bucket_size uniq sup i) (fun r => r = length b) /\
    answers s (begin_local sup i) (fun r => r = List.hd null b) /\
    forall b1 x b2, b = b1 ++ x :: b2 -> answers s (next_local uniq sup x) (fun r => r = List.hd null b2).
Proof.
  intros R H. destruct (open_hash R H) as (t & sp & I & G & Op). exists (bc t). split; [exact (op_pos Op)|]. split; [|split].
  - apply (op_answers Op). now apply Ro_get1.
  - intros k. apply (op_answers Op). unfold bucket, hcall. eapply Ro_ucall; [exact sup_ok|]. now apply Ro_get1.
  - intros i Li b. assert (Eb := within_eq i Op). fold b in Eb. splits.
    + rewrite <- Eb. rewrite <- (op_el Op). exact (@HashPoint.within_ok _ _ _ _ _ _ _ _ _ _ _ _ [] (op_hs Op) _ (op_cl Op) i).
    + apply (op_answers Op). rewrite <- Eb.
      exact (@bucket_size_ok _ _ _ _ _ _ _ _ _ _ _ _ _ _ sup_ok _ _ _ [] (op_wf Op) (op_hs Op) (op_uq Op) (op_lv Op) (size_le Op) _ (op_cl Op) _ Li).
    + apply (op_answers Op). rewrite <- Eb. unfold begin_local, at_. apply Ro_get.
      eapply Ro_hp1; [exact (@begin_local_ok _ _ _ _ _ _ _ _ _ _ _ _ [] (op_wf Op) (op_hs Op) _ (op_cl Op) _ Li)|reflexivity].
    + intros b1 x b2 E. apply (op_answers Op). unfold next_local. rewrite <- Eb in E.
      eapply Ro_hp1; [exact (@HashPoint.next_local_ok _ _ _ _ _ _ _ _ _ _ _ _ [] (op_wf Op) (op_hs Op) (op_uq Op) (op_lv Op) (size_le Op) _ (op_cl Op) _ _ _ _ E)|reflexivity].
Qed.

Lemma value_memory s s' y : memory s' = memory s -> value_of s' y = value_of s y.
Proof. intros M. unfold Client.value_of, val. unfold Client.memory in M. now rewrite M. Qed.
(** equivalent elements are next to each other, and in a unique index there is but one *)
Theorem C24_adjacent s lk nh l k : reachable s lk nh -> holds s l ->
  (exists l1 l2, l = l1 ++ matching s (eq k) l ++ l2) /\ (uniq = true -> length (matching s (eq k) l) <= 1).
Proof.
  intros R H. destruct (open_hash R H) as (t & sp & I & G & Op). assert (Lg := hok_legal this_heq (op_hok Op) k).
  cbn [snd] in Lg. rewrite (op_el Op), <- (op_vals Op) in Lg. exact Lg.
Qed.
(** A new element is put in front of the elements equivalent to it; the other runs do not change.  This holds
    although the insertion may rehash the index. *)
Theorem C24_insert s lk nh l v : reachable s lk nh -> holds s l ->
  match c_insert box v None s with
  | Ret (x, true) s' => exists l', holds s' l' /\ Permutation l' (x :: l) /\
      forall k, matching s' (eq k) l' = (if eq k (key v) then [x] else []) ++ matching s (eq k) l
  | Ret (_, false) s' | Exn s' => exists l', holds s' l' /\ Permutation l' l /\ forall k, matching s' (eq k) l' = matching s (eq k) l
  | UB => False
  end.
Proof.
  intros R (ls & Sq & Nt). assert (W := @insert_effect V throws pick dv hd cs1 cs2 this St_ s lk nh ls l v R Sq Nt).
  assert (Same : forall s', memory s' = memory s -> (exists l', holds s' l' /\ untouched this (value_of s) l l') ->
    exists l', holds s' l' /\ Permutation l' l /\ forall k, matching s' (eq k) l' = matching s (eq k) l).
  { intros s' M (l' & H' & (P & E)). exists l'. splits; auto; [now symmetry|]. intros k. etransitivity; [|exact (E k)].
    apply filter_ext. intros y. f_equal. f_equal. now apply value_memory. }
  destruct (c_insert box v None s) as [(x, [|]) s'|s'|]; auto.
  - destruct W as (R' & M & Nx & l' & H' & (P & E)). exists l'. splits; auto. intros k. unfold matching, having in *. rewrite (E k).
    assert (Vx : value_of s' x = v).
    { unfold Client.value_of, val. change (mem (bget box s')) with (memory s'). rewrite M. cbn. now rewrite Nat.eqb_refl. }
    rewrite Vx. f_equal. apply filter_ext_in. intros y Y. f_equal. f_equal. unfold Client.value_of, val. change (mem (bget box s')) with (memory s').
    rewrite M. cbn. destruct (Nat.eqb_spec y x) as [->|Ne]; [|now rewrite ?(proj2 (Nat.eqb_neq _ _) Ne)]. exfalso. apply Nx.
    assert (P1 := @perm_this V throws pick dv hd cs1 cs2 this St_ s lk nh l R (ex_intro _ ls (conj Sq Nt))).
    destruct (open dv St_ R Sq) as (a & G & _ & Lv). assert (Lx := i_live (g_inv G) x (Permutation_in x P1 Y)). destruct Lx as (w & Lx).
    apply look_in in Lx. now apply (in_map fst) in Lx.
  - destruct W as (_ & M & _ & _ & W). auto.
  - destruct W as (_ & M & _ & W). auto.
Qed.
(** erasure takes an element out of its run *)
Theorem C24_erase s lk nh l x : reachable s lk nh -> holds s l -> In x lk ->
  match c_erase box x s with
  | Ret _ s' => holds s' (remove Nat.eq_dec x l) /\ forall k, matching s' (eq k) (remove Nat.eq_dec x l) = remove Nat.eq_dec x (matching s (eq k) l)
  | _ => False
  end.
Proof.
  intros R (ls & Sq & Nt) Ix. assert (W := @erase_effect V throws pick dv hd cs1 cs2 this St_ s lk nh ls x R Sq Ix). destruct (c_erase box x s) as [u s'|s'|]; auto.
  destruct W as (R' & Gn). rewrite remove_filter. split; [exact (@gone_this V throws pick hd cs1 cs2 this s s' ls l [x] Nt Gn)|]. intros k. unfold matching. rewrite remove_filter. unfold drop.
  rewrite !filter_filter. apply filter_ext_in. intros y Y. cbn [existsb]. destruct (Nat.eqb_spec y x) as [->|Ne]; cbn; [now rewrite andb_false_r|].
  rewrite andb_true_r. f_equal. f_equal. apply (@gone_value V throws pick dv hd cs1 cs2 this s s' ls [x] y Gn). cbn. intuition.
Qed.

(** ** C25 *)
(** the data of the index *)
Definition own_of s : hst := fst (this_of s).
(** [n] buckets have been asked for: there are at least as many, and the elements are within the maximum load *)
Definition rehashed s s' l (n : nat) : Prop :=
  exists l', holds s' l' /\ Permutation l' l /\ (forall k, matching s' (eq k) l' = matching s (eq k) l) /\
    ((N.of_nat n <= biggest)%N -> n <= bc (own_of s')) /\
    (sound (pol (own_of s)) -> (N.of_nat (want (pol (own_of s)) (length l)) <= biggest)%N -> length l <= ml (own_of s')) /\
    (own_of s' = own_of s \/ exists m, bc (own_of s') = bcount m) /\ pol (own_of s') = pol (own_of s).
(** the index has the same sequence, number of buckets, maximum load and maximum load factor *)
Definition unchanged s s' l : Prop :=
  holds s' l /\ bc (own_of s') = bc (own_of s) /\ ml (own_of s') = ml (own_of s) /\ pol (own_of s') = pol (own_of s).
Lemma rehash_run s lk nh l n : reachable s lk nh -> holds s l ->
  match rehash throws pick key hash uniq hd sup n (this_of s) with
  | Ret _ (t', _) =>
      ((N.of_nat n <= biggest)%N -> n <= bc t') /\
      (sound (pol (own_of s)) -> (N.of_nat (want (pol (own_of s)) (length l)) <= biggest)%N -> length l <= ml t') /\
      (t' = own_of s \/ exists m, bc t' = bcount m) /\ pol t' = pol (own_of s)
  | Exn (t', _) => exists h, t' = set_hp h (own_of s)
  | UB => False
  end.
Proof.
  intros R H. destruct (open_hash R H) as (t & sp & I & G & Op). unfold own_of. rewrite (op_st Op). cbn [fst].
  assert (Hs := op_hs Op). rewrite app_nil_r in Hs.
  assert (Sz : length (elems I) = cget sup sp) by (rewrite (op_el Op), (op_sz Op); reflexivity).
  assert (W := @HashLayer.rehash_ok V K throws pick dv hd key eq hash uniq sup _ _ _ sup_ok (s_pick St_) n t sp (calls s) I
    (op_tab Op) (op_wf Op) Hs (op_hok Op) (op_lv Op) (op_head Op) Sz).
  assert (As := adv_self s). rewrite (op_st Op) in As. cbn [snd] in As. rewrite As in W. unfold wp in W.
  destruct (rehash throws pick key hash uniq hd sup n (t, sp)) as [u (t', s')|(t', s')|]; auto.
  - destruct W as (m' & t1 & I' & _ & E & _ & _ & _ & _ & Pl & C). injection E as -> _. rewrite (op_sz Op) in C.
    destruct C as [(-> & C1 & C2)|(C1 & C2)]; splits; auto.
    + intros Le. rewrite C1. assert (B := @bcount_big n Le).
      assert (Mx := C28_size (N.of_nat (Nat.max (want (pol t) (length l)) n))). destruct Mx as (Mx1 & Mx2 & Mx3).
      destruct (N.leb_spec (N.of_nat (Nat.max (want (pol t) (length l)) n)) biggest) as [Q|Q].
      * apply bcount_big in Q. lia.
      * assert (Bb : (biggest <= N.of_nat (bcount (Nat.max (want (pol t) (length l)) n)))%N).
        { unfold bcount. rewrite N2Nat.id. apply Mx3.
          - intros m Hm. eapply N.le_lt_trans; [|exact Q]. exact (@sizes_big m Hm).
          - apply biggest_in. }
        lia.
    + intros Sd Le. rewrite C2. apply Sd. rewrite C1.
      destruct (N.leb_spec (N.of_nat (Nat.max (want (pol t) (length l)) n)) biggest) as [Q|Q].
      * apply bcount_big in Q. lia.
      * assert (Mx := C28_size (N.of_nat (Nat.max (want (pol t) (length l)) n))). destruct Mx as (Mx1 & Mx2 & Mx3).
        assert (Bb : (biggest <= N.of_nat (bcount (Nat.max (want (pol t) (length l)) n)))%N).
        { unfold bcount. rewrite N2Nat.id. apply Mx3.
          - intros m Hm. eapply N.le_lt_trans; [|exact Q]. exact (@sizes_big m Hm).
          - apply biggest_in. }
        lia.
    + right. eauto.
  - destruct W as (m' & h' & _ & E & _). injection E as -> _. eauto.
Qed.
Lemma same_runs s s' l l' : memory s' = memory s -> untouched this (value_of s) l l' ->
  Permutation l' l /\ forall k, matching s' (eq k) l' = matching s (eq k) l.
Proof.
  intros M (P & E). split; [now symmetry|]. intros k. etransitivity; [|exact (E k)]. apply filter_ext. intros y. f_equal. f_equal. now apply value_memory.
Qed.
Theorem C25_rehash s lk nh l n : reachable s lk nh -> holds s l ->
  match run_index throws pick hd all (length cs1, Rehash V n) s with
  | Ret _ s' => reachable s' lk nh /\ memory s' = memory s /\ others throws pick hd cs1 cs2 this s s' /\ rehashed s s' l n
  | Exn s' => reachable s' lk nh /\ memory s' = memory s /\ others throws pick hd cs1 cs2 this s s' /\ unchanged s s' l
  | UB => False
  end.
Proof.
  intros R H. assert (Rn := @rehash_run s lk nh l n R H). destruct H as (ls & Sq & Nt).
  assert (W := @index_effect V throws pick dv hd cs1 cs2 this St_ s lk nh ls l (Rehash V n) R Sq Nt Logic.I).
  assert (E := run_of_index throws pick hd cs1 cs2 this (Rehash V n) s).
  assert (E2 := @index_run V throws pick hd cs1 cs2 this unit (irun throws pick hd this sup (Rehash V n)) s).
  rewrite <- E in E2. destruct (run_index throws pick hd all (length cs1, Rehash V n) s) as [u s'|s'|]; auto.
  - destruct W as (R' & M & _ & _ & l' & Ef & Sq' & H'). change (rehash throws pick key hash uniq hd sup n (this_of s) = Ret u (this_of s')) in E2.
    rewrite E2 in Rn. splits; auto.
    + intros ls0 Sq0. exists l'. now replace ls0 with ls by congruence.
    + exists l'. destruct (same_runs s' M Ef) as (P & Q). split; auto. split; auto. split; auto. unfold own_of in *.
      destruct (this_of s') as (t', sp'). exact Rn.
  - destruct W as (R' & M & _ & l' & Ef & Sq' & H'). change (rehash throws pick key hash uniq hd sup n (this_of s) = Exn (this_of s')) in E2.
    rewrite E2 in Rn. cbn [ieffect_exn] in Ef. subst l'. splits; auto.
    + intros ls0 Sq0. exists l. now replace ls0 with ls by congruence.
    + unfold unchanged. split; auto. unfold own_of in *. destruct (this_of s') as (t', sp'). destruct Rn as (h & ->). cbn. auto.
Qed.
Theorem C25_reserve s lk nh l n : reachable s lk nh -> holds s l ->
  match run_index throws pick hd all (length cs1, Reserve V n) s with
  | Ret _ s' => reachable s' lk nh /\ memory s' = memory s /\ others throws pick hd cs1 cs2 this s s' /\ rehashed s s' l (ceil (pol (own_of s)) n)
  | Exn s' => reachable s' lk nh /\ memory s' = memory s /\ others throws pick hd cs1 cs2 this s s' /\ unchanged s s' l
  | UB => False
  end.
Proof.
  intros R H. set (c := ceil (pol (own_of s)) n). assert (Rn := @rehash_run s lk nh l c R H). destruct H as (ls & Sq & Nt).
  assert (W := @index_effect V throws pick dv hd cs1 cs2 this St_ s lk nh ls l (Reserve V n) R Sq Nt Logic.I).
  assert (E := run_of_index throws pick hd cs1 cs2 this (Reserve V n) s).
  assert (E2 := @index_run V throws pick hd cs1 cs2 this unit (irun throws pick hd this sup (Reserve V n)) s).
  rewrite <- E in E2. destruct (run_index throws pick hd all (length cs1, Reserve V n) s) as [u s'|s'|]; auto.
  - destruct W as (R' & M & _ & _ & l' & Ef & Sq' & H'). change (rehash throws pick key hash uniq hd sup c (this_of s) = Ret u (this_of s')) in E2.
    rewrite E2 in Rn. splits; auto.
    + intros ls0 Sq0. exists l'. now replace ls0 with ls by congruence.
    + exists l'. destruct (same_runs s' M Ef) as (P & Q). split; auto. split; auto. split; auto. unfold own_of in *.
      destruct (this_of s') as (t', sp'). exact Rn.
  - destruct W as (R' & M & _ & l' & Ef & Sq' & H'). change (rehash throws pick key hash uniq hd sup c (this_of s) = Exn (this_of s')) in E2.
    rewrite E2 in Rn. cbn [ieffect_exn] in Ef. subst l'. splits; auto.
    + intros ls0 Sq0. exists l. now replace ls0 with ls by congruence.
    + unfold unchanged. split; auto. unfold own_of in *. destruct (this_of s') as (t', sp'). destruct Rn as (h & ->). cbn. auto.
Qed.

(** ** C26 *)
(** A replacement or modification which fails restores the index, see [intact]: bucket array and all link fields.
    That the log of assignments has room is part of C06 and C08: storing beyond its size would be UB. *)
Theorem C26_replace s lk nh l v x : reachable s lk nh -> holds s l -> In x lk ->
  match c_replace box v x s with
  | Ret true _ => True
  | Ret false s' | Exn s' => intact (own_of s) (own_of s') /\ holds s' l
  | UB => False
  end.
Proof.
  intros R (ls & Sq & Nt) Ix. assert (W := C06_replace dv St_ v x R Sq Ix).
  assert (M := @c_replace_meek V K throws pick hd (mem_world V) key eq hash uniq jh n0 pl cs1 cs2 (own_of s) v x s (intact_refl _)).
  change (match c_replace box v x s with Ret r s' => r = false -> intact (own_of s) (own_of s') | Exn s' => intact (own_of s) (own_of s') | UB => True end) in M.
  destruct (c_replace box v x s) as [[|] s'|s'|]; auto.
  - split; auto. exists ls. split; auto. apply W.
  - split; auto. exists ls. split; auto. apply W.
Qed.
(** The modification fails and the element is kept. *)
Theorem C26_modify_rollback s lk nh l f fx g gx x : reachable s lk nh -> holds s l -> In x lk ->
  match c_modify_rb throws box f fx g gx x s with
  | Ret false s' => look (memory s') x <> None -> intact (own_of s) (own_of s')
  | _ => True
  end.
Proof.
  intros R H Ix.
  assert (M := @c_modify_rb_intact V K throws pick hd (mem_world V) key eq hash uniq jh n0 pl cs1 cs2 (o_bb (box_ok throws dv St_)) (own_of s) f fx g gx x s (intact_refl _)).
  change (match c_modify_rb throws box f fx g gx x s with Ret r s' => r = false -> look (memory s') x <> None -> intact (own_of s) (own_of s') | _ => True end) in M.
  destruct (c_modify_rb throws box f fx g gx x s) as [[|] s'|s'|]; auto.
Qed.
End Props.

(** ** An index with groups of equivalent elements *)
(** values 6, 8, 5, 7 and 9 at the nodes 2 to 6, keys are halves; see [three] *)
Definition up2 : list (code nat) := [by_id false; hash_id true].
Notation sup2 := (stack at60 next_node 1 (mem_world nat) up2).
Example half_hyp : reachable at60 next_node 1 (Focus.all [] up2 hash_half) hash_state [6; 5; 4; 3; 2] [] /\
  setting next_node 1 (Focus.all [] up2 hash_half) /\ holds at60 next_node 1 [] up2 hash_half hash_state [6; 3; 5; 2; 4].
Proof.
  splits; [exact hash_reach|exact three_ok|]. eexists. split; [exact hash_sequences|reflexivity].
Qed.
Notation half_at := (@down nat at60 next_node 1 (mem_world nat) three [] hash_state : hst * St sup2).
Definition value_got {S A} (o : out S A) : option A := match o with Ret a _ => Some a | _ => None end.
Notation halves := (fun v : nat => v / 2).
Example half_lookups :
  value_got (HashIdx.find at60 halves false 1 sup2 (100 - 4) (Nat.eqb 4) half_at) = Some 6 /\
  value_got (HashIdx.find at60 halves false 1 sup2 (100 - 9) (Nat.eqb 9) half_at) = Some 1 /\
  value_got (HashIdx.count at60 halves Nat.eqb false sup2 (100 - 3) (Nat.eqb 3) half_at) = Some 2 /\
  value_got (HashIdx.equal_range at60 halves Nat.eqb false 1 sup2 (100 - 4) (Nat.eqb 4) half_at) = Some (6, 5) /\
  value_got (HashIdx.equal_range at60 halves Nat.eqb false 1 sup2 (100 - 2) (Nat.eqb 2) half_at) = Some (4, 1) /\
  value_got (HashIdx.contains at60 halves false 1 sup2 (100 - 2) (Nat.eqb 2) half_at) = Some true /\
  value_got (bucket_count sup2 half_at) = Some 97 /\
  value_got (bucket at60 (fun k => 100 - k) sup2 3 half_at) = Some 0 /\
  value_got (bucket_size false sup2 96 half_at) = Some 2 /\
  value_got (begin_local sup2 96 half_at) = Some 6 /\
  value_got (next_local false sup2 6 half_at) = Some 3 /\
  value_got (next_local false sup2 3 half_at) = Some null.
Proof. vm_compute. auto 20. Qed.
Definition half_buckets {A} (o : out (St hash_box) A) : nat :=
  match o with Ret _ s | Exn s => bc (fst (@down nat at60 next_node 1 (mem_world nat) three [] s)) | UB => 0 end.
(** the second rehashing throws in the middle *)
Example half_rehash :
  let r := run_index at60 next_node 1 three (0, Rehash nat 100) hash_state in
  hash_seen r = (0, Some [[4; 5; 2; 6; 3]; [4; 2; 5; 3; 6]; [2; 3; 4; 5; 6]]) /\ half_buckets r = 193 /\
  match r with
  | Ret _ s => let r := run_index at60 next_node 1 three (0, Rehash nat 300) s in hash_seen r = (1, hash_seqs s) /\ half_buckets r = 193
  | _ => False
  end.
Proof. vm_compute. auto. Qed.

Print Assumptions C23_iteration.
Print Assumptions C23_find.
Print Assumptions C23_contains.
Print Assumptions C23_count.
Print Assumptions C23_C24_equal_range.
Print Assumptions C23_buckets.
Print Assumptions C24_adjacent.
Print Assumptions C24_insert.
Print Assumptions C24_erase.
Print Assumptions C25_rehash.
Print Assumptions C25_reserve.
Print Assumptions C26_replace.
Print Assumptions C26_modify_rollback.
Print Assumptions C28_size.
Print Assumptions C28_position.
