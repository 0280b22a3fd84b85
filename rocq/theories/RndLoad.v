(** C46, and C44 for random access indices: restoring the order of a random access index.
    Sources: /repo/include/boost/multi_index/detail/rnd_index_loader.hpp, random_access_index.hpp:946-968 *)
From Verif Require SeqModel SeqHeap SeqProofs SaveSeq.
From Verif Require Import Prelude RndModel RndProofs Match Save.
From Verif Require Import SaveSeq.
Set Implicit Arguments.

(** ** Model *)
(** random_access_index_loader_base, rnd_index_loader.hpp:43-147: [ra]: the index; [pv]: prev_spc; [pre]:
    preprocessed *)
Record lst := mkL { ra : rst; pv : nat -> option node; pre : bool }.
Definition LM := M lst.
Definition on {A} (m : RM A) : LM A := fun s =>
  match m (ra s) with Ret a r => Ret a (mkL r (pv s) (pre s)) | Exn r => Exn (mkL r (pv s) (pre s)) | UB => UB end.
(** prev_at(n), 134-137 *)
Definition prev_at (n : nat) : LM node := fun s => match pv s n with Some x => Ret x s | None => UB end.
Definition set_prev_at (n : nat) (x : node) : LM unit :=
  fun s => match pv s n with Some _ => Ret tt (mkL (ra s) (upd (pv s) n (Some x)) (pre s)) | None => UB end.
(** position(x), 124-127 *)
Definition position (x : node) : LM nat := p <- on (get_up x) ;; b <- on a_begin ;; if p <? b then ub else ret (p - b).
(** next_at(n), 129-132 *)
Definition next_at (n : nat) : LM node := on (p <- a_at n ;; rd p).
Definition set_next_at (n : nat) (x : node) : LM unit := on (p <- a_at n ;; wr p x).
(** next(x), 139-142 *)
Definition next (x : node) : LM node := on (p <- get_up x ;; rd p).
Definition set_next (x y : node) : LM unit := on (p <- get_up x ;; wr p y).
(** prev(x), 144-147 *)
Definition prev (x : node) : LM node := n <- position x ;; prev_at n.
Definition set_prev (x y : node) : LM unit := n <- position x ;; set_prev_at n y.

(** [c] slots from [p] on are read, are written to *)
Fixpoint read_all (c p : nat) : RM (list node) :=
  match c with O => ret [] | S c => x <- rd p ;; l <- read_all c (p + 1) ;; ret (x :: l) end.
Fixpoint write_all (p : nat) (l : list node) : RM unit :=
  match l with [] => ret tt | x :: l => wr p x ;;; write_all (p + 1) l end.
Section Throws.
Variable throws : nat -> bool.
(** preprocess, 104-122.  rotate_copy(begin,end,end+1,prev): the last one comes first; rotate(begin,begin+1,end+1):
    the first one comes last. *)
Definition preprocess : LM unit := fun s =>
  if pre s then Ret tt s
  else
    (on (r_tick throws) ;;;
     b <- on a_begin ;; n <- on get_sz ;;
     l <- on (read_all (S n) b) ;;
     (fun s => Ret tt (mkL (ra s) (fun i => nth_error (last l null :: removelast l) i) (pre s))) ;;;
     on (write_all b (tl l ++ [hd null l])) ;;;
     (fun s => Ret tt (mkL (ra s) (pv s) true))) s.
(** 56: the header *)
Definition header_of : LM node := on (p <- a_end ;; rd p).
(** rearrange, 85-95 *)
Definition rearrange (header : node) (position_ : option node) (x : node) : LM unit :=
  preprocess ;;;
  let position_ := match position_ with Some p => p | None => header end in
  p <- prev x ;; n <- next x ;; set_next p n ;;;
  n <- next x ;; p <- prev x ;; set_prev n p ;;;
  set_prev x position_ ;;;
  q <- next position_ ;; set_next x q ;;;
  n <- next x ;; set_prev n x ;;; p <- prev x ;; set_next p x.
(** the loop of the destructor, 68-80: [i] more rounds *)
Fixpoint restore (i : nat) (n : node) : LM unit :=
  match i with
  | O => ret tt
  | S i =>
    n <- prev n ;;
    d <- position n ;;
    (if d =? i then ret tt
     else
       y <- next_at i ;; m <- prev y ;;
       um <- on (get_up m) ;; un <- on (get_up n) ;; on (set_up m un) ;;; on (set_up n um) ;;;
       z <- next_at i ;; set_next_at d z ;;;
       pd <- prev_at d ;; pi <- prev_at i ;; set_prev_at d pi ;;; set_prev_at i pd) ;;;
    set_next n n ;;;
    restore i n
  end.
(** the destructor, 62-82 *)
Definition destroy (header : node) : LM unit := fun s =>
  if pre s then (set_next header header ;;; i <- on get_sz ;; restore i header) s else Ret tt s.
(** [m] in the scope of a loader: the constructor and, in any case, the destructor; random_access_index.hpp:957-966 *)
Definition scope {A} (m : node -> LM A) : RM A := fun r =>
  match header_of (mkL r (fun _ => None) false) with
  | Ret h s => match m h s with
               | Ret a s => match destroy h s with Ret _ s => Ret a (ra s) | Exn s => Exn (ra s) | UB => UB end
               | Exn s => match destroy h s with Ret _ s => Exn (ra s) | Exn s => Exn (ra s) | UB => UB end
               | UB => UB
               end
  | Exn s => Exn (ra s)
  | UB => UB
  end.
(** load_ of a random access index *)
Definition r_load (ents : list node) (ar : archive) : RM archive := scope (fun h => load ents (rearrange h) ar).

(** ** The doubly linked list *)
Definition nextof (s : lst) (D : list node) (x : node) : option node :=
  if among x D then match rup (ra s) x with Some p => slot (ra s) p | None => None end else None.
Definition prevof (s : lst) (D : list node) (x : node) : option node :=
  if among x D then match rup (ra s) x with Some p => if p <? rbs (ra s) then None else pv s (p - rbs (ra s)) | None => None end else None.
(** different nodes of [D] have different places *)
Definition apart (s : lst) (D : list node) : Prop :=
  forall x y, In x D -> In y D -> rup (ra s) x <> None -> rup (ra s) x = rup (ra s) y -> x = y.
Definition sim (D : list node) (s : lst) (t : SeqModel.sst) : Prop :=
  apart s D /\ (forall x, SeqModel.nx t x = nextof s D x) /\ (forall x, SeqModel.pr t x = prevof s D x).
(** what is left as it is *)
Definition same (s s' : lst) : Prop :=
  (forall x, rup (ra s') x = rup (ra s) x) /\ keeps (ra s) (ra s') /\ rtk (ra s') = rtk (ra s) /\ pre s' = pre s /\
  (forall p, slot (ra s') p = None <-> slot (ra s) p = None) /\ (forall i, pv s' i = None <-> pv s i = None).
Lemma same_refl s : same s s.
Proof. unfold same. splits; auto using keeps_refl; reflexivity. Qed.
Lemma same_trans s s' s'' : same s s' -> same s' s'' -> same s s''.
Proof.
  intros (A1 & A2 & A3 & A4 & A5 & A6) (B1 & B2 & B3 & B4 & B5 & B6). unfold same. splits.
  - intros x. now rewrite B1.
  - eapply keeps_trans; eauto.
  - congruence.
  - congruence.
  - intros p. now rewrite B5.
  - intros i. now rewrite B6.
Qed.
(** [m] does in the array what [t] does in a list *)
Definition simc {A} (D : list node) (m : LM A) (t : SeqModel.SM A) : Prop :=
  forall s u a u', sim D s u -> t u = Ret a u' -> exists s', m s = Ret a s' /\ sim D s' u' /\ same s s'.
Lemma simc_bind {A B} D (m : LM A) (k : A -> LM B) t kt : simc D m t -> (forall a, simc D (k a) (kt a)) -> simc D (bind m k) (bind t kt).
Proof.
  intros H K s u b u' Sm E. unfold bind in E. destruct (t u) as [a u1| |] eqn:E1; try discriminate.
  destruct (H s u a u1 Sm E1) as (s1 & Em & S1 & F1). destruct (K a s1 u1 b u' S1 E) as (s' & Ek & S' & F').
  exists s'. rewrite (bind_ret _ _ _ Em). splits; auto. eapply same_trans; eauto.
Qed.
Lemma lst_eta s : mkL (ra s) (pv s) (pre s) = s.
Proof. now destruct s. Qed.
Lemma next_eq s D x y : nextof s D x = Some y -> next x s = Ret y s.
Proof.
  unfold nextof, next, on, bind, get_up, rd. destruct (among x D); [|discriminate]. destruct (rup (ra s) x); [|discriminate].
  intros ->. now rewrite lst_eta.
Qed.
Lemma position_eq s x p : rup (ra s) x = Some (rbs (ra s) + p) -> position x s = Ret p s.
Proof.
  intros E. unfold position, on, bind, get_up, a_begin. rewrite E. cbn [ra rbs].
  destruct (Nat.ltb_spec (rbs (ra s) + p) (rbs (ra s))); [lia|]. unfold ret. rewrite !lst_eta. f_equal. lia.
Qed.
Lemma prevof_pos s D x y : prevof s D x = Some y -> exists p, rup (ra s) x = Some (rbs (ra s) + p) /\ pv s p = Some y.
Proof.
  unfold prevof. destruct (among x D); [|discriminate]. destruct (rup (ra s) x) as [q|]; [|discriminate].
  destruct (Nat.ltb_spec q (rbs (ra s))) as [|L]; [discriminate|]. intros E. exists (q - rbs (ra s)). split; auto. f_equal. lia.
Qed.
Lemma prev_eq s D x y : prevof s D x = Some y -> prev x s = Ret y s.
Proof.
  intros E. destruct (prevof_pos _ _ _ E) as (p & U & P). unfold prev. rewrite (bind_ret _ _ _ (position_eq _ _ _ U)). unfold prev_at. now rewrite P.
Qed.
Lemma simc_next D x : simc D (next x) (SeqModel.get_next x).
Proof.
  intros s u a u' Sm E. unfold SeqModel.get_next in E. destruct (SeqModel.nx u x) as [v|] eqn:N; [|discriminate]. injection E as <- <-.
  destruct Sm as (Ap & Hn & Hp). rewrite Hn in N. exists s. splits; auto using same_refl. eapply next_eq; eauto.
  split; auto.
Qed.
Lemma simc_prev D x : simc D (prev x) (SeqModel.get_prior x).
Proof.
  intros s u a u' Sm E. unfold SeqModel.get_prior in E. destruct (SeqModel.pr u x) as [v|] eqn:N; [|discriminate]. injection E as <- <-.
  destruct Sm as (Ap & Hn & Hp). rewrite Hp in N. exists s. splits; auto using same_refl. eapply prev_eq; eauto. split; auto.
Qed.
Lemma upd_none {A} (f : nat -> option A) p v q : f p <> None -> upd f p (Some v) q = None <-> f q = None.
Proof. intros H. unfold upd. destruct (Nat.eqb_spec q p) as [->|]; [split; congruence|reflexivity]. Qed.
Lemma simc_set_next D x v : simc D (set_next x v) (SeqModel.set_next x v).
Proof.
  intros s u a u' Sm E. unfold SeqModel.set_next in E. destruct (SeqModel.nx u x) as [w|] eqn:N; [|discriminate]. injection E as <- <-.
  destruct Sm as (Ap & Hn & Hp). rewrite Hn in N. unfold nextof in N. destruct (among x D) eqn:I; [|discriminate].
  destruct (rup (ra s) x) as [p|] eqn:U; [|discriminate].
  eexists. split; [unfold set_next, on, bind, get_up, wr; rewrite U, N; reflexivity|]. split.
  - split; [exact Ap|]. cbn. split; [|intros y; rewrite Hp; reflexivity]. intros y. unfold upd at 1. unfold nextof. cbn.
    destruct (Nat.eqb_spec y x) as [->|Ne].
    + rewrite I, U. now rewrite upd_eq.
    + rewrite Hn. unfold nextof. destruct (among y D) eqn:J; auto. destruct (rup (ra s) y) as [q|] eqn:Uy; auto.
      rewrite upd_neq; auto. intros ->. apply Ne. apply Ap; [now apply among_in|now apply among_in|congruence|congruence].
  - unfold same. cbn. splits; auto using keeps_refl; [unfold keeps; auto| |reflexivity]. intros q. apply upd_none. congruence.
Qed.
Lemma simc_set_prev D x v : simc D (set_prev x v) (SeqModel.set_prior x v).
Proof.
  intros s u a u' Sm E. unfold SeqModel.set_prior in E. destruct (SeqModel.pr u x) as [w|] eqn:N; [|discriminate]. injection E as <- <-.
  destruct Sm as (Ap & Hn & Hp). rewrite Hp in N. pose proof N as N'. unfold prevof in N'. destruct (among x D) eqn:I; [|discriminate]. clear N'.
  destruct (prevof_pos _ _ _ N) as (p & U & P).
  eexists. split; [unfold set_prev; rewrite (bind_ret _ _ _ (position_eq _ _ _ U)); unfold set_prev_at; rewrite P; reflexivity|]. split.
  - split; [exact Ap|]. cbn [SeqModel.nx SeqModel.pr]. split; [intros y; rewrite Hn; reflexivity|]. intros y. unfold upd at 1. unfold prevof. cbn [ra pv pre].
    destruct (Nat.eqb_spec y x) as [->|Ne].
    + rewrite I, U. destruct (Nat.ltb_spec (rbs (ra s) + p) (rbs (ra s))); [lia|]. replace (rbs (ra s) + p - rbs (ra s)) with p by lia. now rewrite upd_eq.
    + rewrite Hp. unfold prevof. destruct (among y D) eqn:J; auto. destruct (rup (ra s) y) as [q|] eqn:Uy; auto.
      destruct (Nat.ltb_spec q (rbs (ra s))) as [|Lq]; auto.
      rewrite upd_neq; auto. intros Eq. apply Ne. apply Ap; [now apply among_in|now apply among_in|congruence|]. rewrite U, Uy. f_equal. lia.
  - unfold same. cbn. splits; auto using keeps_refl; [reflexivity|]. intros q. apply upd_none. congruence.
Qed.

(** the element [x] goes after [pos] *)
Definition list_rearrange (pos x : node) : SeqModel.SM unit :=
  p <- SeqModel.get_prior x ;; n <- SeqModel.get_next x ;; SeqModel.set_next p n ;;;
  n <- SeqModel.get_next x ;; p <- SeqModel.get_prior x ;; SeqModel.set_prior n p ;;;
  SeqModel.set_prior x pos ;;;
  q <- SeqModel.get_next pos ;; SeqModel.set_next x q ;;;
  n <- SeqModel.get_next x ;; SeqModel.set_prior n x ;;; p <- SeqModel.get_prior x ;; SeqModel.set_next p x.
Definition link_after (pos x : node) : SeqModel.SM unit :=
  SeqModel.set_prior x pos ;;;
  q <- SeqModel.get_next pos ;; SeqModel.set_next x q ;;;
  n <- SeqModel.get_next x ;; SeqModel.set_prior n x ;;; p <- SeqModel.get_prior x ;; SeqModel.set_next p x.
Lemma list_rearrange_parts pos x u : list_rearrange pos x u = (SeqModel.unlink x ;;; link_after pos x) u.
Proof.
  unfold list_rearrange, link_after, SeqModel.unlink, bind.
  repeat match goal with |- context [match ?m with Ret _ _ => _ | Exn _ => _ | UB => _ end] => destruct m; try reflexivity end.
Qed.
Lemma link_after_before pos q x u : SeqModel.nx u pos = Some q -> SeqModel.pr u q = Some pos -> SeqModel.pr u x <> None -> q <> x ->
  link_after pos x u = SeqHeap.link_before q x u.
Proof.
  intros N P X Ne. unfold link_after, SeqHeap.link_before. unfold bind, SeqModel.get_prior at 2, SeqModel.set_prior at 1.
  rewrite P. destruct (SeqModel.pr u x) eqn:E; [|easy]. unfold SeqModel.get_next at 1. cbn. rewrite N. unfold SeqModel.set_prior at 2. rewrite E. reflexivity.
Qed.
Lemma list_rearrange_ok u h l pv x rs ls : SeqHeap.wf u ((h :: l) :: rs) ls -> In x l -> (forall p, pv = Some p -> In p l /\ p <> x) ->
  exists u', list_rearrange (match pv with Some p => p | None => h end) x u = Ret tt u' /\ SeqHeap.wf u' ((h :: after pv x l) :: rs) ls.
Proof.
  intros W Ix Hp. assert (N := SeqProofs.wf_nodup _ _ _ _ _ W). apply NoDup_cons_iff in N as (Nh & N).
  destruct (@SaveSeq.after_parts pv x l N Ix Hp) as (a & b & l1 & l2 & El & Eab & Ea & Hl). rewrite Ea.
  assert (Nx : ~ In x (l1 ++ l2)). { rewrite <- Eab. rewrite El in N. now apply NoDup_remove_2 in N. }
  assert (Hx : x <> h) by (intros ->; auto).
  rewrite list_rearrange_parts. rewrite El in W.
  destruct (SeqHeap.unlink_at _ _ _ _ _ _ _ W) as (u1 & E1 & W1 & _). rewrite (bind_ret _ _ _ E1). rewrite Eab in W1.
  assert (Ps : match pv with Some p => p | None => h end = last l1 h).
  { destruct pv as [p|]; [destruct Hl as (l0 & ->); now rewrite last_last|now subst]. }
  rewrite Ps. rewrite link_after_before with (q := hd h l2).
  - destruct (SeqHeap.insert_at _ _ _ _ _ _ _ W1) as (u' & E & W' & _). eauto.
  - destruct l1 as [|c l1 _] using rev_ind; [apply (SeqProofs.begin_at _ _ _ _ _ W1)|].
    rewrite last_last. rewrite <- app_assoc in W1. apply (SeqProofs.next_at _ _ _ _ _ _ _ W1).
  - destruct W1 as (R1 & _). inversion R1 as [|? ? Rg _]; subst. clear - Rg. unfold SeqHeap.ring in Rg. cbn [app] in Rg.
    destruct l1 as [|c l1 _] using rev_ind.
    + cbn [app last]. destruct l2; cbn in Rg |- *; apply Rg.
    + rewrite last_last. rewrite <- !app_assoc in Rg. cbn [app] in Rg. rewrite app_comm_cons in Rg. apply adj_app in Rg as (_ & Rg). destruct l2; cbn in Rg |- *; apply Rg.
  - destruct (SeqHeap.wf_alloc _ _ _ x W1) as (_ & (v & Av)); [rewrite !in_app_iff; cbn; auto|]. congruence.
  - destruct l2 as [|y l2]; cbn [hd]; [auto|]. intros ->. apply Nx. rewrite in_app_iff. cbn. auto.
Qed.
Lemma rearrange_sim D pos x : simc D (p <- prev x ;; n <- next x ;; set_next p n ;;;
  n <- next x ;; p <- prev x ;; set_prev n p ;;; set_prev x pos ;;; q <- next pos ;; set_next x q ;;;
  n <- next x ;; set_prev n x ;;; p <- prev x ;; set_next p x) (list_rearrange pos x).
Proof.
  unfold list_rearrange.
  repeat (first [apply simc_bind; [first [apply simc_next|apply simc_prev|apply simc_set_next|apply simc_set_prev]|intros ?]
               |apply simc_set_next]).
Qed.

(** ** From the array to the list *)
Lemma read_all_ok l : forall p r, (forall i x, nth_error l i = Some x -> slot r (p + i) = Some x) -> read_all (length l) p r = Ret l r.
Proof.
  induction l as [|x l IH]; intros p r H; [reflexivity|]. cbn [read_all length]. unfold bind at 1, rd.
  assert (E := H 0 x eq_refl). rewrite Nat.add_0_r in E. rewrite E. unfold bind. rewrite IH; [reflexivity|].
  intros i y Ei. rewrite <- Nat.add_assoc. now apply H.
Qed.
Definition with_slot (r : rst) (f : nat -> option node) : rst := mkR f (rup r) (rsz r) (rcap r) (rbs r) (rbrk r) (rtk r).
Lemma write_all_ok l : forall p r, (forall i, i < length l -> slot r (p + i) <> None) ->
  exists f, write_all p l r = Ret tt (with_slot r f) /\ (forall i x, nth_error l i = Some x -> f (p + i) = Some x) /\
    (forall q, q < p \/ p + length l <= q -> f q = slot r q).
Proof.
  induction l as [|x l IH]; intros p r H; cbn [write_all].
  - exists (slot r). splits; auto; [now destruct r|]. intros [|i] x E; discriminate.
  - assert (A := H 0 ltac:(cbn; lia)). rewrite Nat.add_0_r in A.
    set (r1 := with_slot r (upd (slot r) p (Some x))).
    rewrite (@bind_ret _ _ _ (wr p x) _ r tt r1) by (unfold wr; destruct (slot r p); [reflexivity|easy]).
    destruct (IH (p + 1) r1) as (f & E & F1 & F2).
    { intros i L. unfold r1, with_slot. cbn. unfold upd. destruct (Nat.eqb_spec (p + 1 + i) p); [lia|]. rewrite <- Nat.add_assoc. apply H. cbn. lia. }
    exists f. splits.
    + rewrite E. reflexivity.
    + intros [|i] y Ey; cbn in Ey.
      * injection Ey as ->. rewrite Nat.add_0_r, F2 by lia. unfold r1. cbn. apply upd_eq.
      * replace (p + S i) with (p + 1 + i) by lia. auto.
    + intros q Lq. cbn in Lq. rewrite F2 by lia. unfold r1. cbn. apply upd_neq. lia.
Qed.
Lemma adj_nth {A} (R : A -> A -> Prop) l : (forall i a b, nth_error l i = Some a -> nth_error l (S i) = Some b -> R a b) -> adj R l.
Proof.
  induction l as [|a [|b l] IH]; intros H; cbn; auto. split; [apply (H 0); auto|]. apply IH. intros i c d. apply (H (S i)).
Qed.
Lemma nth_adj {A} (R : A -> A -> Prop) l : adj R l -> forall i a b, nth_error l i = Some a -> nth_error l (S i) = Some b -> R a b.
Proof.
  induction l as [|a [|b l] IH]; intros H [|i] c d E F; cbn in *; try discriminate; try (destruct i; discriminate).
  - injection E as <-. injection F as <-. apply H.
  - apply (IH (proj2 H) i); auto.
Qed.

(** the nodes [D] of [r0] are a list *)
Record linked (r0 : rst) (h : node) (l : list node) (s : lst) : Prop := mkLinked {
  l_pre : pre s = true;
  l_tk : throws (rtk r0) = false /\ rtk (ra s) = S (rtk r0);
  l_keep : keeps r0 (ra s);
  l_up : forall x, rup (ra s) x = rup r0 x;
  l_slot : forall p, slot (ra s) p = None <-> slot r0 p = None;
  l_pv : forall i, i <= rsz r0 -> pv s i <> None;
  l_ring : exists u, sim (l ++ [h]) s u /\ SeqHeap.wf u [h :: l] [] }.
Lemma linked_new l h r : arr r (l ++ [h]) -> forall pv0,
  match preprocess (mkL r pv0 false) with
  | Ret _ s => throws (rtk r) = false /\ linked r h l s
  | Exn s => throws (rtk r) = true /\ pre s = false /\ arr (ra s) (l ++ [h]) /\ keeps r (ra s) /\ rtk (ra s) = S (rtk r)
  | UB => False
  end.
Proof.
  intros A pv0. set (f := l ++ [h]) in *. unfold preprocess. cbn [pre].
  set (r1 := mkR (slot r) (rup r) (rsz r) (rcap r) (rbs r) (rbrk r) (S (rtk r))).
  unfold bind at 1. unfold on at 1, r_tick. cbn [ra]. fold r1. destruct (throws (rtk r)) eqn:T.
  { cbn. splits; auto; [destruct A; now split|unfold keeps; auto]. }
  cbn [pv pre]. unfold bind at 1. unfold on at 1, a_begin. cbn [ra pv pre]. unfold bind at 1. unfold on at 1, get_sz. cbn [ra pv pre].
  unfold bind at 1. unfold on at 1. cbn [ra pv pre].
  assert (Lf : length f = S (rsz r)) by apply A.
  assert (Rd : read_all (S (rsz r1)) (rbs r1) r1 = Ret f r1).
  { cbn [rsz rbs r1]. rewrite <- Lf. apply read_all_ok. intros i x E. cbn. now apply (a_slot A). }
  rewrite Rd. unfold bind at 1. cbn [ra pv pre].
  assert (Lr : length (tl f ++ [hd null f]) = length f). { destruct f as [|y f']; [discriminate|]. rewrite app_length. cbn. lia. }
  destruct (@write_all_ok (tl f ++ [hd null f]) (rbs r1) r1) as (g & Wr & G1 & G2).
  { intros i L. rewrite Lr in L. cbn. now apply (@arr_al r f i A). }
  unfold bind at 1. unfold on at 1. cbn [ra pv pre]. rewrite Wr. cbn [ra pv pre].
  replace (last f null :: removelast f) with (h :: l) by (unfold f; now rewrite last_last, removelast_last).
  assert (Nf : NoDup f) by apply A.
  assert (Ll : length l = rsz r) by (unfold f in Lf; rewrite app_length in Lf; cbn in Lf; lia).
  assert (Gn : forall i x, nth_error f i = Some x -> g (rbs r + i) = nth_error (tl f ++ [hd null f]) i).
  { intros i x E. assert (Li : i < length f) by (apply nth_error_Some; congruence). rewrite <- Lr in Li.
    destruct (nth_error (tl f ++ [hd null f]) i) as [y|] eqn:Ey; [|apply nth_error_None in Ey; lia]. now apply G1. }
  split; auto. constructor; cbn [ra pv pre with_slot rup slot rtk].
  - reflexivity.
  - auto.
  - unfold keeps. auto.
  - reflexivity.
  - intros p. destruct (Nat.lt_ge_cases p (rbs r)) as [L1|L1]; [rewrite G2 by (left; exact L1); reflexivity|].
    destruct (Nat.lt_ge_cases p (rbs r + length f)) as [L2|L2]; [|rewrite G2 by (right; rewrite Lr; exact L2); reflexivity].
    replace p with (rbs r + (p - rbs r)) by lia. destruct (@arr_nth r f (p - rbs r) A ltac:(lia)) as (x & E & Es & _).
    rewrite (Gn _ _ E), Es. assert (nth_error (tl f ++ [hd null f]) (p - rbs r) <> None) by (apply nth_error_Some; lia). split; congruence.
  - intros i L. apply nth_error_Some. cbn. lia.
  - set (s1 := mkL _ _ true).
    assert (Nx : forall i x, nth_error f i = Some x -> nextof s1 f x = nth_error (tl f ++ [hd null f]) i).
    { intros i x E. unfold nextof. rewrite (proj2 (among_in x f)) by (eapply nth_error_In; eauto). unfold s1. cbn.
      rewrite (a_up A _ E). eapply Gn; eauto. }
    assert (Px : forall i x, nth_error f i = Some x -> prevof s1 f x = nth_error (h :: l) i).
    { intros i x E. unfold prevof. rewrite (proj2 (among_in x f)) by (eapply nth_error_In; eauto). unfold s1. cbn [ra pv with_slot rup rbs r1].
      rewrite (a_up A _ E). destruct (Nat.ltb_spec (rbs r + i) (rbs r)); [lia|]. now replace (rbs r + i - rbs r) with i by lia. }
    exists (SeqModel.mkS (nextof s1 f) (prevof s1 f) 0 0). split.
    + split; [|split; reflexivity]. intros x y Ix Iy _ E. unfold s1 in E. cbn in E.
      apply In_nth_error in Ix as (i & Ix). apply In_nth_error in Iy as (j & Iy). rewrite (a_up A _ Ix), (a_up A _ Iy) in E.
      injection E as E. assert (i = j) by lia. congruence.
    + split; [|split; [|constructor]].
      * constructor; [|constructor]. unfold SeqHeap.ring. cbn [app]. fold f. apply adj_nth. intros i a b Ea Eb.
        cbn [nth_error] in Eb. unfold SeqHeap.R. cbn.
        assert (Li : i < length f) by (apply nth_error_Some; congruence).
        split.
        -- destruct i as [|i].
           ++ injection Ea as <-. rewrite (Nx (length l)) by (unfold f; rewrite nth_error_app2, Nat.sub_diag; auto).
              destruct f as [|y f'] eqn:Ef; [discriminate|]. cbn [tl hd nth_error] in *. injection Eb as ->.
              assert (length f' = length l) by (cbn in Lf; lia). rewrite nth_error_app2 by lia. now replace (length l - length f') with 0 by lia.
           ++ cbn [nth_error] in Ea. rewrite (Nx i a Ea). destruct f as [|y f'] eqn:Ef; [discriminate|]. cbn [tl hd nth_error] in *.
              rewrite nth_error_app1; [exact Eb|]. apply nth_error_Some. congruence.
        -- rewrite (Px i b Eb). destruct i as [|i]; [exact Ea|]. cbn [nth_error] in *. unfold f in Ea. rewrite nth_error_app1 in Ea; [exact Ea|].
           rewrite Lf in Li. lia.
      * cbn. rewrite !app_nil_r. eapply NoDup_perm; [|exact Nf]. unfold f. symmetry. apply Permutation_cons_append.
Qed.
Lemma sim_perm D D' s u : Permutation D D' -> sim D s u -> sim D' s u.
Proof.
  intros P (A & B & C). assert (E : forall x, among x D' = among x D).
  { intros x. apply eq_true_iff_eq. rewrite !among_in. split; apply Permutation_in; [symmetry|]; auto. }
  split; [|split].
  - intros x y I J. apply A; eapply Permutation_in; try (symmetry; exact P); auto.
  - intros x. rewrite B. unfold nextof. now rewrite E.
  - intros x. rewrite C. unfold prevof. now rewrite E.
Qed.
Lemma linked_rearrange r0 h l s pos x : linked r0 h l s -> In x l -> (forall p, pos = Some p -> In p l /\ p <> x) ->
  exists s', rearrange h pos x s = Ret tt s' /\ linked r0 h (after pos x l) s'.
Proof.
  intros [P T K U Sl Pv (u & Sm & W)] Ix Hp.
  destruct (@list_rearrange_ok u h l pos x [] [] W Ix Hp) as (u' & E & W').
  destruct (@rearrange_sim (l ++ [h]) (match pos with Some p => p | None => h end) x _ _ _ _ Sm E) as (s' & E' & Sm' & (F1 & F2 & F3 & F4 & F5 & F6)).
  exists s'. split.
  { unfold rearrange. rewrite (@bind_ret _ _ _ preprocess _ s tt s) by (unfold preprocess; now rewrite P). exact E'. }
  constructor; auto.
  - congruence.
  - now rewrite F3.
  - eapply keeps_trans; eauto.
  - intros y. now rewrite F1.
  - intros p. now rewrite F5.
  - intros i L. rewrite F6. auto.
  - exists u'. split; auto. eapply sim_perm; [|exact Sm']. apply Permutation_app_tail. apply after_perm; auto.
    apply SeqProofs.wf_nodup in W. now apply NoDup_cons_iff in W.
Qed.

(** ** From the list back to the array *)
(** [i] elements are to be placed, the others are *)
Record undone (s : lst) (h : node) (l : list node) (i : nat) (cur : node) : Prop := mkUndone {
  u_sz : rsz (ra s) = length l;
  u_nd : NoDup (l ++ [h]);
  u_al : forall j, j <= length l -> slot (ra s) (rbs (ra s) + j) <> None;
  u_pa : forall j, j <= length l -> pv s j <> None;
  u_le : i <= length l;
  u_low : forall j x, j < i -> nth_error l j = Some x -> exists u, u < i /\ rup (ra s) x = Some (rbs (ra s) + u) /\
    pv s u = nth_error (h :: l) j /\ (S j < i -> slot (ra s) (rbs (ra s) + u) = nth_error l (S j));
  u_own : forall u, u < i -> exists j x, j < i /\ nth_error l j = Some x /\ rup (ra s) x = Some (rbs (ra s) + u);
  u_inj : forall j j' x x', j < i -> j' < i -> nth_error l j = Some x -> nth_error l j' = Some x' -> rup (ra s) x = rup (ra s) x' -> j = j';
  u_cur : nth_error (l ++ [h]) i = Some cur;
  u_prev : pv s i = nth_error (h :: l) i;
  u_high : forall j x, i <= j -> nth_error (l ++ [h]) j = Some x -> rup (ra s) x = Some (rbs (ra s) + j) /\ slot (ra s) (rbs (ra s) + j) = Some x }.
(** what the destructor leaves as it is *)
Definition outside (s s' : lst) : Prop :=
  keeps (ra s) (ra s') /\ rtk (ra s') = rtk (ra s) /\ (forall p, slot (ra s') p = None <-> slot (ra s) p = None).
Lemma outside_refl s : outside s s.
Proof. unfold outside. splits; auto using keeps_refl. reflexivity. Qed.
Lemma outside_trans s s' s'' : outside s s' -> outside s' s'' -> outside s s''.
Proof.
  intros (A1 & A2 & A3) (B1 & B2 & B3). unfold outside. splits; [eapply keeps_trans; eauto|congruence|]. intros p. now rewrite B3.
Qed.
Definition set_slot (s : lst) (p : nat) (x : node) : lst :=
  mkL (with_slot (ra s) (upd (slot (ra s)) p (Some x))) (pv s) (pre s).
Lemma set_slot_outside s p x : slot (ra s) p <> None -> outside s (set_slot s p x).
Proof. intros H. unfold outside. splits; cbn; auto; [unfold keeps; auto|]. intros q. now apply upd_none. Qed.
Lemma set_next_eq s x p y : rup (ra s) x = Some p -> slot (ra s) p <> None -> set_next x y s = Ret tt (set_slot s p y).
Proof. intros U Sl. unfold set_next, on, bind, get_up, wr. rewrite U. destruct (slot (ra s) p); [reflexivity|easy]. Qed.
(** the element which is to be placed is the one it should be *)
Lemma place_one s h l i x : rsz (ra s) = length l -> undone s h l (S i) x -> forall y, nth_error l i = Some y ->
  exists s', (d <- position y ;;
    (if d =? i then ret tt
     else
       z <- next_at i ;; m <- prev z ;;
       um <- on (get_up m) ;; un <- on (get_up y) ;; on (set_up m un) ;;; on (set_up y um) ;;;
       z <- next_at i ;; set_next_at d z ;;;
       pd <- prev_at d ;; pi <- prev_at i ;; set_prev_at d pi ;;; set_prev_at i pd)) s = Ret tt s' /\
    outside s s' /\
    rsz (ra s') = length l /\
    (forall j, j <= length l -> pv s' j <> None) /\
    (forall j x, j < i -> nth_error l j = Some x -> exists u, u < i /\ rup (ra s') x = Some (rbs (ra s') + u) /\
       pv s' u = nth_error (h :: l) j /\ (S j <= i -> slot (ra s') (rbs (ra s') + u) = nth_error l (S j))) /\
    (forall u, u < i -> exists j x, j < i /\ nth_error l j = Some x /\ rup (ra s') x = Some (rbs (ra s') + u)) /\
    (forall j j' x x', j < i -> j' < i -> nth_error l j = Some x -> nth_error l j' = Some x' -> rup (ra s') x = rup (ra s') x' -> j = j') /\
    rup (ra s') y = Some (rbs (ra s') + i) /\ pv s' i = nth_error (h :: l) i /\
    (forall j x, S i <= j -> nth_error (l ++ [h]) j = Some x -> rup (ra s') x = Some (rbs (ra s') + j) /\ slot (ra s') (rbs (ra s') + j) = Some x).
Proof.
  intros Sz Un y Ey. destruct Un as [_ Nd Al Pa Le Low Own Inj Cur Prv High].
  destruct (Low i y ltac:(lia) Ey) as (d & Ld & Ud & Pd & _).
  rewrite (bind_ret _ _ _ (position_eq _ _ _ Ud)).
  destruct (Nat.eqb_spec d i) as [->|Nd'].
  - exists s. split; [reflexivity|]. split; [apply outside_refl|]. split; [auto|]. split; [auto|].
    assert (G : forall j x, j < i -> nth_error l j = Some x -> rup (ra s) x <> Some (rbs (ra s) + i)).
    { intros j z Lj Ej E. assert (j = i); [|lia]. eapply Inj; try eassumption; try lia. congruence. }
    splits; auto.
    + intros j z Lj Ej. destruct (Low j z ltac:(lia) Ej) as (u & Lu & Uu & Pu & Su). exists u. splits; auto.
      * assert (u <> i); [|lia]. intros ->. eapply G; eauto.
      * intros L. apply Su. lia.
    + intros u Lu. destruct (Own u ltac:(lia)) as (j & z & Lj & Ej & Uj). exists j, z. splits; auto.
      assert (j <> i); [|lia]. intros ->. rewrite Ey in Ej. injection Ej as <-. rewrite Ud in Uj. injection Uj as Uj. lia.
    + intros. eapply Inj; try eassumption; lia.
  - (* the owner of the place *)
    destruct (Own i ltac:(lia)) as (k & m & Lk & Ek & Um).
    assert (Nk : k <> i). { intros ->. rewrite Ey in Ek. injection Ek as <-. rewrite Ud in Um. injection Um as Um. lia. }
    destruct (Low k m Lk Ek) as (k' & _ & Uk' & Pk & Sk). rewrite Um in Uk'. injection Uk' as Uk'. assert (k' = i) as -> by lia. clear Uk'.
    specialize (Sk ltac:(lia)).
    assert (Ew : exists w, nth_error l (S k) = Some w). { destruct (nth_error l (S k)) eqn:E; eauto. apply nth_error_None in E. lia. }
    destruct Ew as (w & Ew). rewrite Ew in Sk.
    destruct (Low (S k) w ltac:(lia) Ew) as (uw & Luw & Uw & Pw & _). cbn [nth_error] in Pw. rewrite Ek in Pw.
    assert (Nym : y <> m). { intros ->. rewrite Ud in Um. injection Um as Um. lia. }
    assert (Npi : exists pi, pv s i = Some pi). { destruct (pv s i) eqn:E; eauto. elim (Pa i ltac:(lia) E). }
    destruct Npi as (pi & Epi).
    assert (Npd : exists pd, pv s d = Some pd). { destruct (pv s d) eqn:E; eauto. elim (Pa d ltac:(lia) E). }
    destruct Npd as (pd & Epd).
    set (b := rbs (ra s)) in *.
    set (r1 := mkR (slot (ra s)) (upd (upd (rup (ra s)) m (Some (b + d))) y (Some (b + i))) (rsz (ra s)) (rcap (ra s)) b (rbrk (ra s)) (rtk (ra s))).
    set (r2 := mkR (upd (slot (ra s)) (b + d) (Some w)) (rup r1) (rsz (ra s)) (rcap (ra s)) b (rbrk (ra s)) (rtk (ra s))).
    set (s' := mkL r2 (upd (upd (pv s) d (Some pi)) i (Some pd)) (pre s)).
    exists s'. split.
    { rewrite (@bind_ret _ _ _ (next_at i) _ s w s).
      2:{ unfold next_at, on, bind, a_at, rd. fold b. rewrite Sk. now rewrite lst_eta. }
      rewrite (@bind_ret _ _ _ (prev w) _ s m s).
      2:{ unfold prev. rewrite (bind_ret _ _ _ (position_eq _ _ _ Uw)). unfold prev_at. now rewrite Pw. }
      rewrite (@bind_ret _ _ _ (on (get_up m)) _ s (b + i) s) by (unfold on, get_up; rewrite Um; now rewrite lst_eta).
      rewrite (@bind_ret _ _ _ (on (get_up y)) _ s (b + d) s) by (unfold on, get_up; rewrite Ud; now rewrite lst_eta).
      set (s1 := mkL (mkR (slot (ra s)) (upd (rup (ra s)) m (Some (b + d))) (rsz (ra s)) (rcap (ra s)) b (rbrk (ra s)) (rtk (ra s))) (pv s) (pre s)).
      rewrite (@bind_ret _ _ _ (on (set_up m (b + d))) _ s tt s1) by (unfold on, set_up; rewrite Um; reflexivity).
      rewrite (@bind_ret _ _ _ (on (set_up y (b + i))) _ s1 tt (mkL r1 (pv s) (pre s))).
      2:{ unfold on, set_up. cbn [s1 ra rup]. rewrite upd_neq by auto. rewrite Ud. reflexivity. }
      rewrite (@bind_ret _ _ _ (next_at i) _ (mkL r1 (pv s) (pre s)) w (mkL r1 (pv s) (pre s))).
      2:{ unfold next_at, on, bind, a_at, rd. cbn [ra r1 rbs slot]. rewrite Sk. reflexivity. }
      rewrite (@bind_ret _ _ _ (set_next_at d w) _ (mkL r1 (pv s) (pre s)) tt (mkL r2 (pv s) (pre s))).
      2:{ unfold set_next_at, on, bind, a_at, wr. cbn [ra r1 rbs slot]. destruct (slot (ra s) (b + d)) eqn:E; [reflexivity|]. elim (Al d ltac:(lia) E). }
      unfold bind, prev_at, set_prev_at. cbn [pv ra pre]. rewrite Epd. cbn [pv ra pre]. rewrite Epi. cbn [pv ra pre]. rewrite Epd. cbn [pv ra pre].
      rewrite upd_neq by auto. rewrite Epi. reflexivity. }
    cbn [s' ra pv r2 r1 rsz rbs rup slot].
    assert (UpOther : forall z, z <> y -> z <> m -> upd (upd (rup (ra s)) m (Some (b + d))) y (Some (b + i)) z = rup (ra s) z).
    { intros z H1 H2. now rewrite !upd_neq. }
    assert (UpM : upd (upd (rup (ra s)) m (Some (b + d))) y (Some (b + i)) m = Some (b + d)) by (rewrite upd_neq by auto; apply upd_eq).
    assert (Nm : forall j z, j < S i -> nth_error l j = Some z -> j <> k -> z <> m).
    { intros j z Lj Ej Nj ->. apply Nj. eapply Inj; try eassumption. reflexivity. }
    assert (Ny : forall j z, j < S i -> nth_error l j = Some z -> j <> i -> z <> y).
    { intros j z Lj Ej Nj ->. apply Nj. eapply (Inj j i); try eassumption; [lia|reflexivity]. }
    assert (Pos : forall j z u, j < S i -> nth_error l j = Some z -> rup (ra s) z = Some (b + u) -> j <> k -> j <> i -> u <> d /\ u <> i).
    { intros j z u Lj Ej Uj N1 N2. split; intros ->.
      - apply N2. eapply (Inj j i); try eassumption; [lia|congruence].
      - apply N1. eapply (Inj j k); try eassumption. congruence. }
    split; [|split; [auto|split; [|split; [|split; [|split; [|split; [|split]]]]]]].
    + unfold outside. cbn. splits; auto; [unfold keeps; auto|]. intros p. apply upd_none. apply Al. lia.
    + intros j Lj. specialize (Pa j Lj). unfold upd. destruct (j =? i); [discriminate|]. destruct (j =? d); [discriminate|auto].
    + intros j z Lj Ej. destruct (Nat.eq_dec j k) as [->|Nj].
      * assert (z = m) by congruence. subst z. exists d. split; [lia|]. split; [exact UpM|]. split.
        -- rewrite upd_neq by lia. rewrite upd_eq. now rewrite <- Pk.
        -- intros _. now rewrite upd_eq, Ew.
      * destruct (Low j z ltac:(lia) Ej) as (u & Lu & Uu & Pu & Su).
        destruct (Pos j z u ltac:(lia) Ej Uu Nj ltac:(lia)) as (N1 & N2).
        exists u. split; [lia|]. split; [|split].
        -- rewrite UpOther; [exact Uu|apply (Ny j); [lia|exact Ej|lia]|apply (Nm j); [lia|exact Ej|exact Nj]].
        -- now rewrite !upd_neq.
        -- intros L. rewrite upd_neq by lia. apply Su. lia.
    + intros u Lu. destruct (Nat.eq_dec u d) as [->|N].
      * exists k, m. split; [lia|]. split; auto.
      * destruct (Own u ltac:(lia)) as (j & z & Lj & Ej & Uj). exists j, z.
        assert (N1 : j <> i). { intros ->. rewrite Ey in Ej. injection Ej as <-. rewrite Ud in Uj. injection Uj as Uj. lia. }
        assert (N2 : j <> k). { intros ->. rewrite Ek in Ej. injection Ej as <-. rewrite Um in Uj. injection Uj as Uj. lia. }
        splits; [lia|auto|]. rewrite UpOther; [exact Uj|apply (Ny j); [lia|exact Ej|lia]|apply (Nm j); [lia|exact Ej|exact N2]].
    + intros j j' z z' Lj Lj' Ej Ej' E.
      assert (C : forall j z, j < i -> nth_error l j = Some z -> j <> k -> upd (upd (rup (ra s)) m (Some (b + d))) y (Some (b + i)) z = rup (ra s) z).
      { intros q v Lq Eq Nq. apply UpOther; [apply (Ny q); [lia|exact Eq|lia]|apply (Nm q); [lia|exact Eq|exact Nq]]. }
      destruct (Nat.eq_dec j k) as [->|Nj], (Nat.eq_dec j' k) as [->|Nj']; auto.
      * exfalso. assert (z = m) by congruence. subst z. rewrite UpM, (C j' z') in E; auto. symmetry in E.
        destruct (Pos j' z' d ltac:(lia) Ej' E Nj' ltac:(lia)). congruence.
      * exfalso. assert (z' = m) by congruence. subst z'. rewrite UpM, (C j z) in E; auto.
        destruct (Pos j z d ltac:(lia) Ej E Nj ltac:(lia)). congruence.
      * rewrite (C j z), (C j' z') in E by auto. eapply (Inj j j'); try eassumption; lia.
    + apply upd_eq.
    + rewrite upd_eq. now rewrite <- Pd.
    + intros j z Lj Ej. destruct (High j z Lj Ej) as (H1 & H2).
      assert (Q : forall q v, q < S i -> nth_error l q = Some v -> z <> v).
      { intros q v Lq Eq ->. assert (E' : nth_error (l ++ [h]) q = Some v) by (rewrite nth_error_app1; auto; apply nth_error_Some; congruence).
        assert (j = q); [|lia]. eapply nth_inj; eauto. }
      rewrite UpOther; [|eapply Q; [|exact Ey]; lia|eapply Q; [|exact Ek]; lia]. split; auto. rewrite upd_neq by lia. auto.
Qed.
Lemma restore_ok h l : forall i cur s, undone s h l i cur -> exists s' c, restore i cur s = Ret tt s' /\ outside s s' /\ undone s' h l 0 c.
Proof.
  induction i as [|i IH]; intros cur s Un; cbn [restore].
  - exists s, cur. split; [reflexivity|]. split; [apply outside_refl|auto].
  - assert (Ey : exists y, nth_error l i = Some y).
    { destruct (nth_error l i) eqn:E; eauto. apply nth_error_None in E. assert (L := u_le Un). lia. }
    destruct Ey as (y & Ey).
    rewrite (@bind_ret _ _ _ (prev cur) _ s y s).
    2:{ unfold prev. rewrite (bind_ret _ _ _ (position_eq _ _ (S i) (proj1 (u_high Un (Nat.le_refl _) (u_cur Un))))). unfold prev_at.
        rewrite (u_prev Un). cbn [nth_error]. now rewrite Ey. }
    destruct (place_one (u_sz Un) Un Ey) as (s1 & E1 & O1 & Sz1 & Pa1 & Low1 & Own1 & Inj1 & Uy & Py & Hi1).
    match goal with |- context [bind (position y) ?k] => set (K := k) end.
    match type of E1 with (bind _ ?k) _ = _ => set (K1 := k) in E1 end.
    assert (EK : forall a t, K a t = bind (K1 a) (fun _ => set_next y y ;;; restore i y) t) by reflexivity.
    unfold bind in E1. unfold bind at 1. destruct (position y s) as [d s0| |]; try discriminate. rewrite EK.
    rewrite (bind_ret _ _ _ E1). clear EK K E1.
    assert (Al1 : forall j, j <= length l -> slot (ra s1) (rbs (ra s1) + j) <> None).
    { intros j Lj E. destruct O1 as (Kp & _ & O3). apply O3 in E. replace (rbs (ra s1)) with (rbs (ra s)) in E by (symmetry; apply Kp). now apply (u_al Un) in E. }
    assert (Li := u_le Un).
    rewrite (bind_ret _ _ _ (@set_next_eq s1 y _ y Uy (Al1 i ltac:(lia)))).
    set (s2 := set_slot s1 (rbs (ra s1) + i) y).
    assert (O2 : outside s1 s2) by (apply set_slot_outside, Al1; lia).
    destruct (IH y s2) as (s' & c & E' & O' & U').
    { assert (B2 : rbs (ra s2) = rbs (ra s1)) by reflexivity. constructor; rewrite ?B2.
      - exact Sz1.
      - apply Un.
      - intros j Lj E. apply (proj2 (proj2 O2)) in E. now apply Al1 in E.
      - exact Pa1.
      - lia.
      - intros j x Lj Ej. destruct (Low1 j x Lj Ej) as (u & Lu & Uu & Pu & Su). exists u. splits; auto.
        intros L. cbn. rewrite upd_neq by lia. apply Su. lia.
      - exact Own1.
      - exact Inj1.
      - rewrite nth_error_app1 by lia. auto.
      - exact Py.
      - intros j x Lj Ej. destruct (Nat.eq_dec j i) as [->|N].
        + rewrite nth_error_app1 in Ej by lia. assert (x = y) by congruence. subst x. split; [exact Uy|]. cbn. apply upd_eq.
        + destruct (Hi1 j x ltac:(lia) Ej) as (H1 & H2). split; [exact H1|]. cbn. rewrite upd_neq by lia. auto. }
    exists s', c. splits; auto. eapply outside_trans; [exact O1|]. eapply outside_trans; [exact O2|exact O'].
Qed.
Lemma destroy_linked r0 h l0 l s : arr r0 (l0 ++ [h]) -> Permutation l l0 -> linked r0 h l s ->
  exists s', destroy h s = Ret tt s' /\ arr (ra s') (l ++ [h]) /\ keeps r0 (ra s') /\ rtk (ra s') = rtk (ra s).
Proof.
  intros A Pm Lk. destruct Lk as [Lp _ Lke Lup Lsl Lpv (u & (Ap & Hn & Hp) & W)]. set (f := l0 ++ [h]) in *.
  assert (Len : length l = rsz r0). { apply Permutation_length in Pm. assert (H := a_len A). unfold f in H. rewrite app_length in H. cbn in H. lia. }
  assert (Pf : Permutation (l ++ [h]) f) by now apply Permutation_app_tail.
  assert (Bs : rbs (ra s) = rbs r0) by apply Lke.
  assert (Uh : rup (ra s) h = Some (rbs (ra s) + length l)).
  { rewrite Lup, Bs. apply (a_up A). unfold f. rewrite nth_error_app2 by (apply Permutation_length in Pm; lia).
    replace (length l - length l0) with 0; auto. apply Permutation_length in Pm. lia. }
  assert (Al : forall j, j <= length l -> slot (ra s) (rbs (ra s) + j) <> None).
  { intros j Lj E. apply Lsl in E. rewrite Bs in E. assert (H := a_cap A). eapply (a_all A); [|exact E]. lia. }
  unfold destroy. rewrite Lp. rewrite (bind_ret _ _ _ (@set_next_eq s h _ h Uh (Al _ (Nat.le_refl _)))).
  set (s1 := set_slot s (rbs (ra s) + length l) h).
  assert (O1 : outside s s1) by (apply set_slot_outside, Al; lia).
  rewrite (@bind_ret _ _ _ (on get_sz) _ s1 (length l) s1).
  2:{ unfold on, get_sz. rewrite lst_eta. cbn. destruct Lke as (K & _). now rewrite K, Len. }
  assert (Nf : NoDup (l ++ [h])). { eapply NoDup_perm; [symmetry; exact Pf|apply A]. }
  assert (Pos : forall x, In x (l ++ [h]) -> exists i, i <= length l /\ rup (ra s) x = Some (rbs (ra s) + i) /\ nth_error f i = Some x).
  { intros x I. apply (Permutation_in _ Pf) in I. apply In_nth_error in I as (i & Ei). exists i.
    assert (i < length f) by (apply nth_error_Some; congruence). rewrite (a_len A) in H. splits; auto; [lia|]. rewrite Lup, Bs. now apply (a_up A). }
  assert (Rg : forall i a b, nth_error (h :: l ++ [h]) i = Some a -> nth_error (l ++ [h]) i = Some b -> nextof s (l ++ [h]) a = Some b /\ prevof s (l ++ [h]) b = Some a).
  { intros i a b Ea Eb. destruct W as (W & _). inversion W as [|? ? Wr _]; subst. unfold SeqHeap.ring in Wr. cbn [app] in Wr.
    destruct (@nth_adj _ _ _ Wr i a b Ea Eb) as (N1 & N2). now rewrite <- Hn, <- Hp. }
  assert (Nx : forall x y p, In x (l ++ [h]) -> nextof s (l ++ [h]) x = Some y -> rup (ra s) x = Some p -> slot (ra s) p = Some y).
  { intros x y p I E U. unfold nextof in E. rewrite (proj2 (among_in x _) I), U in E. exact E. }
  assert (Pv : forall x y i, prevof s (l ++ [h]) x = Some y -> rup (ra s) x = Some (rbs (ra s) + i) -> pv s i = Some y).
  { intros x y i E U. apply prevof_pos in E as (q & U' & P). rewrite U in U'. injection U' as U'. assert (q = i) by lia. now subst. }
  assert (At : forall j x, nth_error l j = Some x -> nth_error (l ++ [h]) j = Some x).
  { intros j x E. rewrite nth_error_app1; auto. apply nth_error_Some. congruence. }
  assert (Hin : forall j x, nth_error l j = Some x -> In x (l ++ [h])). { intros j x E. apply in_or_app. left. eapply nth_error_In; eauto. }
  assert (Hl : nth_error (l ++ [h]) (length l) = Some h) by (rewrite nth_error_app2, Nat.sub_diag; auto).
  assert (NotH : forall j x, nth_error l j = Some x -> x <> h).
  { intros j x E ->. apply NoDup_remove_2 in Nf. rewrite app_nil_r in Nf. apply Nf. eapply nth_error_In; eauto. }
  assert (Lt : forall j x, nth_error l j = Some x -> exists u, u < length l /\ rup (ra s) x = Some (rbs (ra s) + u)).
  { intros j x E. destruct (Pos x (Hin j x E)) as (v & Lv & Uv & Ev). exists v. split; auto.
    assert (v <> length l); [|lia]. intros ->. apply (NotH j x E). apply Ap; [eapply Hin; eauto|apply in_or_app; right; now left|congruence|congruence]. }
  destruct (@restore_ok h l (length l) h s1) as (s' & c & E' & O' & U').
  { constructor; cbn [s1 set_slot ra pv with_slot rsz rbs rup slot].
    - rewrite Len. apply Lke.
    - exact Nf.
    - intros j Lj E. apply (proj2 (proj2 O1)) in E. eapply Al; eauto.
    - intros j Lj. apply Lpv. lia.
    - lia.
    - intros j x Lj Ej. destruct (Lt j x Ej) as (v & Lv & Uv). exists v. splits; auto.
      + destruct (nth_error (h :: l) j) as [a|] eqn:Ea; [|apply nth_error_None in Ea; cbn in Ea; lia].
        eapply Pv; [|exact Uv]. eapply (Rg j a x); [|now apply At]. rewrite app_comm_cons. rewrite nth_error_app1; auto. cbn. lia.
      + intros L. rewrite upd_neq by lia. destruct (nth_error l (S j)) as [y|] eqn:Ey; [|apply nth_error_None in Ey; lia].
        apply (Nx x y (rbs (ra s) + v)); [exact (Hin j x Ej)| |exact Uv]. apply (Rg (S j) x y); [|now apply At]. cbn. now apply At.
    - intros v Lv. assert (Lvf : v < length f). { rewrite (a_len A). lia. }
      destruct (nth_error f v) as [x|] eqn:Ex; [|apply nth_error_None in Ex; lia].
      assert (Ix : In x (l ++ [h])). { eapply Permutation_in; [symmetry; exact Pf|]. eapply nth_error_In; eauto. }
      assert (Ux : rup (ra s) x = Some (rbs (ra s) + v)). { rewrite Lup, Bs. now apply (a_up A). }
      apply in_app_or in Ix as [Ix|[<-|[]]].
      + apply In_nth_error in Ix as (j & Ej). exists j, x. splits; auto. apply nth_error_Some. congruence.
      + rewrite Uh in Ux. injection Ux as Ux. lia.
    - intros j j' x x' Lj Lj' Ej Ej' E. assert (x = x').
      { apply Ap; auto; try (eapply Hin; eauto). destruct (Lt j x Ej) as (v & _ & Uv). congruence. }
      subst x'. apply (@nth_inj _ (l ++ [h]) j j' x Nf (At _ _ Ej) (At _ _ Ej')).
    - exact Hl.
    - destruct (nth_error (h :: l) (length l)) as [a|] eqn:Ea; [|apply nth_error_None in Ea; cbn in Ea; lia].
      eapply Pv; [|exact Uh]. apply (Rg (length l) a h); auto. rewrite app_comm_cons. rewrite nth_error_app1; [auto|cbn; lia].
    - intros j x Lj Ej. assert (Hj : j < length (l ++ [h])) by (apply nth_error_Some; congruence). rewrite app_length in Hj. cbn in Hj.
      assert (j = length l) as -> by lia. rewrite Hl in Ej. injection Ej as <-. split; auto. apply upd_eq. }
  exists s'. assert (O := outside_trans O1 O'). destruct O as (K & T & Sl).
  assert (K0 : keeps r0 (ra s')) by (eapply keeps_trans; eauto).
  split; [exact E'|]. split; [|split; [auto|auto]].
  destruct K0 as (K1 & K2 & K3 & K4).
  assert (Hi := fun j x => u_high U' (Nat.le_0_l j) (x := x)).
  constructor.
  - intros i x E. now apply Hi.
  - intros i x E. now apply Hi.
  - rewrite app_length. cbn. lia.
  - rewrite K1, K2. apply A.
  - intros i L E. apply Sl, Lsl in E. rewrite K3 in E. rewrite K2 in L. now apply (a_all A) in E.
  - rewrite K2, K3, K4. apply A.
  - intros p L. rewrite K4 in L. apply Sl, Lsl. now apply (a_new A).
  - exact Nf.
  - intros I. apply (Permutation_in _ Pf) in I. now apply (a_nn A).
Qed.

(** ** In the scope of a loader *)
(** nothing has been rearranged yet, or the elements are a list *)
Definition scoped (r : rst) (h : node) (l0 l : list node) (s : lst) : Prop :=
  pre s = false /\ ra s = r /\ l = l0 \/ linked r h l s.
Lemma rearrange_pre h pos x s s1 : preprocess s = Ret tt s1 -> pre s1 = true -> rearrange h pos x s = rearrange h pos x s1.
Proof.
  intros E P. unfold rearrange. rewrite (bind_ret _ _ _ E). symmetry. rewrite (@bind_ret _ _ _ preprocess _ s1 tt s1); [reflexivity|].
  unfold preprocess. now rewrite P.
Qed.
Lemma rearrange_scoped r h l0 l s pos x : arr r (l0 ++ [h]) -> Permutation l l0 -> scoped r h l0 l s -> In x l ->
  (forall p, pos = Some p -> In p l /\ p <> x) ->
  match rearrange h pos x s with
  | Ret _ s' => linked r h (after pos x l) s' /\ (pre s = false -> throws (rtk r) = false)
  | Exn s' => throws (rtk r) = true /\ pre s = false /\ l = l0 /\ pre s' = false /\ arr (ra s') (l ++ [h]) /\ keeps r (ra s') /\ rtk (ra s') = S (rtk r)
  | UB => False
  end.
Proof.
  intros A Pm [(P & E & ->)|Lk] Ix Hp.
  - assert (H := @linked_new l0 h r A (pv s)). replace (mkL r (pv s) false) with s in H by (destruct s; cbn in *; congruence). destruct (preprocess s) as [[] s1|s1|] eqn:Es; [| |easy].
    + destruct H as (T & Lk). rewrite (@rearrange_pre h pos x s s1 Es (l_pre Lk)). 
      destruct (@linked_rearrange r h _ _ pos x Lk Ix Hp) as (s' & -> & Lk'). split; auto.
    + unfold rearrange, bind. rewrite Es. destruct H as (T & P1 & A1 & K1 & T1). auto 10.
  - destruct (@linked_rearrange r h _ _ pos x Lk Ix Hp) as (s' & -> & Lk'). split; auto. rewrite (l_pre Lk). discriminate.
Qed.
Lemma scope_new {A} (m : node -> LM A) l h r : arr r (l ++ [h]) ->
  scope m r = match m h (mkL r (fun _ => None) false) with
              | Ret a s => match destroy h s with Ret _ s => Ret a (ra s) | Exn s => Exn (ra s) | UB => UB end
              | Exn s => match destroy h s with Ret _ s => Exn (ra s) | Exn s => Exn (ra s) | UB => UB end
              | UB => UB
              end.
Proof.
  intros Ar. unfold scope, header_of, on, bind, a_end, rd. cbn [ra].
  rewrite (a_slot Ar (rsz r) (x := h)); [reflexivity|]. assert (L := a_len Ar). rewrite app_length in L. cbn in L.
  rewrite nth_error_app2 by lia. now replace (rsz r - length l) with 0 by lia.
Qed.
Lemma destroy_scoped r h l0 l s : arr r (l0 ++ [h]) -> Permutation l l0 -> scoped r h l0 l s ->
  exists s', destroy h s = Ret tt s' /\ arr (ra s') (l ++ [h]) /\ keeps r (ra s') /\
    (rtk (ra s') = rtk r \/ throws (rtk r) = false /\ rtk (ra s') = S (rtk r)).
Proof.
  intros A Pm [(P & E & ->)|Lk].
  - exists s. unfold destroy. rewrite P, E. splits; auto using keeps_refl.
  - destruct (destroy_linked A Pm Lk) as (s' & E & A' & K & T). exists s'. splits; auto. right. rewrite T. apply (l_tk Lk).
Qed.

(** any rearrangements: each moves an element after another one (or to the beginning) *)
Fixpoint rearranges (h : node) (ops : list (option node * node)) : LM unit :=
  match ops with [] => ret tt | (pos, x) :: ops => rearrange h pos x ;;; rearranges h ops end.
Definition sensible (l : list node) (op : option node * node) : Prop :=
  In (snd op) l /\ forall p, fst op = Some p -> In p l /\ p <> snd op.
Lemma sensible_perm l l' op : Permutation l l' -> sensible l op -> sensible l' op.
Proof.
  intros P (A & B). split; [eapply Permutation_in; eauto|]. intros p E. destruct (B p E) as (C & D). split; auto. eapply Permutation_in; eauto.
Qed.
Lemma rearranges_ok r h l0 ops : forall l s, arr r (l0 ++ [h]) -> Permutation l l0 -> scoped r h l0 l s -> Forall (sensible l0) ops ->
  match rearranges h ops s with
  | Ret _ s' => scoped r h l0 (fold_left (fun l op => after (fst op) (snd op) l) ops l) s' /\
                Permutation (fold_left (fun l op => after (fst op) (snd op) l) ops l) l0
  | Exn s' => throws (rtk r) = true /\ ops <> [] /\ pre s = false /\ pre s' = false /\ arr (ra s') (l0 ++ [h]) /\ keeps r (ra s')
  | UB => False
  end.
Proof.
  induction ops as [|(pos, x) ops IH]; intros l s A Pm Sc V; cbn [rearranges fold_left]; [unfold ret; auto|].
  inversion V as [|? ? Vx V']; subst. apply (sensible_perm (Permutation_sym Pm)) in Vx as (Ix & Hp). cbn [fst snd] in *.
  assert (H := @rearrange_scoped r h l0 l s pos x A Pm Sc Ix Hp). unfold bind. destruct (rearrange h pos x s) as [[] s1|s1|]; [| |easy].
  - destruct H as (Lk & T).
    assert (Pm1 : Permutation (after pos x l) l0).
    { rewrite <- Pm. symmetry. apply after_perm; auto. eapply NoDup_perm; [symmetry; exact Pm|]. assert (N := a_nd A). apply NoDup_app_iff in N. tauto. }
    specialize (IH _ s1 A Pm1 (or_intror Lk) V'). destruct (rearranges h ops s1); auto.
    destruct IH as (_ & _ & P1 & _). rewrite (l_pre Lk) in P1. discriminate.
  - destruct H as (T & P & -> & P' & A' & K & _). splits; auto. discriminate.
Qed.
(** C46.  Within a loader any number of elements are moved, each after another one or to the beginning: in the end
    the elements are in the order which results, and the slots and the nodes refer to each other.  If memory for the
    list cannot be had, nothing has changed. *)
Theorem C46_rearrangements r h l ops : arr r (l ++ [h]) -> Forall (sensible l) ops ->
  match scope (fun h => rearranges h ops) r with
  | Ret _ r' => arr r' (fold_left (fun l op => after (fst op) (snd op) l) ops l ++ [h]) /\ keeps r r'
  | Exn r' => throws (rtk r) = true /\ ops <> [] /\ arr r' (l ++ [h]) /\ keeps r r'
  | UB => False
  end.
Proof.
  intros A V. rewrite (scope_new _ l h A). set (s0 := mkL r _ false).
  assert (H := @rearranges_ok r h l ops l s0 A (Permutation_refl l) (or_introl (conj eq_refl (conj eq_refl eq_refl))) V).
  destruct (rearranges h ops s0) as [[] s|s|]; [| |easy].
  - destruct H as (Sc & Pm). destruct (@destroy_scoped r h l _ s A Pm Sc) as (s' & -> & A' & K & _). auto.
  - destruct H as (T & Ne & _ & P & A' & K). unfold destroy. rewrite P. auto.
Qed.
(** ** Saving and loading *)
(** as for sequenced indices *)
Theorem C44_random_access base xs f m0 : NoDup base -> Permutation xs base -> ready base m0 ->
  (forall a b, In a base -> In b base -> f a = f b -> a = b) ->
  exists m1 ar, save xs m0 = Ret ar m1 /\ ready base m1 /\
    forall tail r h, arr r (map f base ++ [h]) -> throws (rtk r) = false ->
      exists r', r_load (map f base) (map (option_map f) ar ++ tail) r = Ret tail r' /\ arr r' (map f xs ++ [h]) /\ keeps r r'.
Proof.
  intros N Pm Rd Inj.
  destruct (@save_load unit (fun _ _ => True) (fun _ _ => ret tt) (fun _ => False) base xs f m0 N Pm Rd Inj) as (m1 & ar & E & Rd1 & _).
  { intros. exact I. }
  exists m1, ar. splits; auto. intros tail r h A T.
  destruct (@save_load lst (scoped r h (map f base)) (rearrange h) (fun _ => False) base xs f m0 N Pm Rd Inj) as (m1' & ar' & E' & _ & K).
  { intros pos x l s Pl Sc Ix Hp. assert (H := @rearrange_scoped r h _ l s pos x A Pl Sc Ix Hp). unfold wp. destruct (rearrange h pos x s) as [[] s'|s'|].
    - right. apply H.
    - destruct H. congruence.
    - easy. }
  rewrite E in E'. injection E' as <- <-.
  unfold r_load. rewrite (scope_new _ _ _ A). set (s0 := mkL r _ false).
  assert (W := K tail s0 ltac:(left; auto)). unfold wp in W. destruct (load _ _ _ s0) as [t s| |]; try easy. destruct W as (-> & Sc).
  destruct (@destroy_scoped r h (map f base) (map f xs) s A) as (s' & -> & A' & Kp & _); auto.
  - now apply Permutation_map.
  - eauto.
Qed.
(** as [o_load_emit] *)
Lemma r_load_emit ok base Fin tail r h : arr r (base ++ [h]) -> Permutation Fin base -> subseq (filter ok Fin) base ->
  wp (r_load base (emit ok (hd null Fin) 3 Fin ++ tail))
    (fun t r' => t = tail /\ arr r' (Fin ++ [h]) /\ (rtk r' = rtk r \/ throws (rtk r) = false /\ rtk r' = S (rtk r)))
    (fun r' => arr r' (base ++ [h]) /\ throws (rtk r) = true /\ rtk r' = S (rtk r)) r.
Proof.
  intros A Pm Sb. assert (Nb : NoDup base) by (assert (N := a_nd A); apply NoDup_app_iff in N; tauto).
  assert (NF : NoDup Fin) by (eapply NoDup_perm; [symmetry; exact Pm|auto]).
  unfold wp, r_load. rewrite (scope_new _ _ _ A). set (s0 := mkL r _ false).
  set (Ex := fun s => pre s = false /\ arr (ra s) (base ++ [h]) /\ throws (rtk r) = true /\ rtk (ra s) = S (rtk r)).
  assert (W : wp (load base (rearrange h) (emit ok (hd null Fin) 3 Fin ++ tail)) (fun t s => t = tail /\ scoped r h base Fin s) Ex s0).
  { apply load_restores with (Rep := scoped r h base) (l := base); auto.
    - intros y I. eapply Permutation_in; eauto.
    - intros P x Q l s Pl Sc. assert (Sp := placed_sub Pl). pose proof Pl as (Pml & EL & _).
      assert (Ixl : In x l) by (eapply Permutation_in; [symmetry; exact Pml|rewrite EL, in_app_iff; cbn; auto]).
      assert (H := @rearrange_scoped r h base l s (last_opt P) x A ltac:(now rewrite Pml) Sc Ixl). unfold wp.
      match type of H with ?X -> _ => assert (Hp : X) end.
      { intros p Ep. destruct P as [|q P0 _] using rev_ind; [discriminate|]. rewrite last_opt_snoc in Ep. injection Ep as ->.
        split; [eapply subseq_in; [exact Sp|]; rewrite in_app_iff; cbn; auto|]. intros ->. rewrite EL, <- app_assoc in NF. cbn [app] in NF.
        apply NoDup_remove_2 in NF. apply NF. rewrite in_app_iff. cbn. auto. }
      specialize (H Hp). destruct (rearrange h (last_opt P) x s) as [[] s'|s'|]; [| |easy].
      + exists (after (last_opt P) x l). split; [right; apply H|now apply (placed_move (S := lst))].
      + destruct H as (T & _ & -> & P' & A' & _ & T'). unfold Ex. auto.
    - now symmetry.
    - left. auto. }
  unfold wp in W. destruct (load _ _ _ s0) as [t s|s|]; [| |easy].
  - destruct W as (-> & Sc). destruct (@destroy_scoped r h base Fin s A Pm Sc) as (s' & -> & A' & _ & T). auto.
  - destruct W as (P & A' & T & T'). unfold destroy. rewrite P. auto.
Qed.
Theorem C44_random_access_any r h l ar : arr r (l ++ [h]) ->
  wp (r_load l ar) (fun _ r' => exists l', Permutation l' l /\ arr r' (l' ++ [h]) /\ keeps r r')
    (fun r' => exists l', Permutation l' l /\ arr r' (l' ++ [h]) /\ keeps r r') r.
Proof.
  intros A. assert (Nl : NoDup l) by (assert (N := a_nd A); apply NoDup_app_iff in N; tauto).
  unfold wp, r_load. rewrite (scope_new _ _ _ A). set (s0 := mkL r _ false).
  set (Rep := fun l' s => exists r1 l1, arr r1 (l1 ++ [h]) /\ keeps r r1 /\ Permutation l' l1 /\ scoped r1 h l1 l' s).
  assert (W : wp (load l (rearrange h) ar) (fun _ s' => exists l', Permutation l' l /\ Rep l' s') (fun s' => exists l', Permutation l' l /\ Rep l' s') s0).
  { apply load_any with (Rep := Rep) (l := l); auto; [intros x J; exact J| |].
    - intros pos x l1 s Pl (r1 & l2 & A1 & K1 & P1 & Sc) Ix Hp.
      assert (H := @rearrange_scoped r1 h l2 l1 s pos x A1 P1 Sc Ix Hp). unfold wp. destruct (rearrange h pos x s) as [[] s'|s'|]; auto.
      + assert (Pa : Permutation (after pos x l1) l1) by (symmetry; apply after_perm; auto; eapply NoDup_perm; [symmetry; exact Pl|auto]).
        exists (after pos x l1). split; [etransitivity; eauto|]. exists r1, l2. splits; auto; [etransitivity; eauto|]. right. apply H.
      + destruct H as (_ & _ & -> & P' & A' & K' & _). exists l2. split; auto. exists (ra s'), l2. splits; auto.
        * eapply keeps_trans; eauto.
        * left. auto.
    - exists r, l. splits; auto using keeps_refl. left. auto. }
  assert (Fin : forall s, (exists l', Permutation l' l /\ Rep l' s) ->
     exists s', destroy h s = Ret tt s' /\ exists l', Permutation l' l /\ arr (ra s') (l' ++ [h]) /\ keeps r (ra s')).
  { intros s (l' & Pm & r1 & l1 & A1 & K1 & P1 & Sc). destruct (@destroy_scoped r1 h l1 l' s A1 P1 Sc) as (s' & E & A' & K' & _).
    exists s'. split; auto. exists l'. splits; auto. eapply keeps_trans; eauto. }
  unfold wp in W. destruct (load l (rearrange h) ar s0) as [a s|s|]; auto; destruct (Fin s W) as (s' & -> & H); exact H.
Qed.
End Throws.

(** ** The hypotheses can be met *)
(** slots 5 to 18, ten elements, the header and three free ones *)
Definition slots : list node := map moved ten ++ [40] ++ [9; 9; 9].
Definition some_array : rst :=
  mkR (fun p => if p <? 5 then None else nth_error slots (p - 5))
      (fun x => if existsb (Nat.eqb x) (map moved ten ++ [40]) then Some (5 + index_of x (map moved ten ++ [40])) else None)
      10 13 5 19 0.
Example C46_hyp : arr some_array (map moved ten ++ [40]) /\
  Forall (sensible (map moved ten)) [(None, moved (node_of 7)); (Some (moved (node_of 7)), moved (node_of 2)); (Some (moved (node_of 9)), moved (node_of 7))].
Proof.
  split.
  - split.
    + intros i x H. assert (L : i < 11) by (change 11 with (length (map moved ten ++ [40])); apply nth_error_Some; rewrite H; discriminate).
      do 11 (destruct i as [|i]; [injection H as <-; reflexivity|]). lia.
    + intros i x H. assert (L : i < 11) by (change 11 with (length (map moved ten ++ [40])); apply nth_error_Some; rewrite H; discriminate).
      do 11 (destruct i as [|i]; [injection H as <-; reflexivity|]). lia.
    + reflexivity.
    + cbn. lia.
    + cbn [rcap rbs slot some_array]. intros i L. do 14 (destruct i as [|i]; [discriminate|]). lia.
    + cbn. lia.
    + cbn [rbrk slot some_array]. intros p L. destruct (Nat.ltb_spec p 5); auto. apply nth_error_None. change (length slots) with 14. lia.
    + vm_compute. repeat (constructor; [cbn; intuition discriminate|]). constructor.
    + vm_compute. intuition discriminate.
  - assert (K : forall i, i < 10 -> In (moved (node_of i)) (map moved ten)).
    { intros i L. apply in_map. do 10 (destruct i as [|i]; [vm_compute; tauto|]). lia. }
    repeat apply Forall_cons; [..|apply Forall_nil]; (split; cbn [fst snd]; [apply K; lia|]); [discriminate|..];
      (intros p H; injection H as <-; split; [apply K; lia|apply Nat.eqb_neq; vm_compute; reflexivity]).
Qed.
Example C46_run :
  match scope (fun h => rearranges (fun _ => false) h [(None, moved (node_of 7)); (Some (moved (node_of 7)), moved (node_of 2)); (Some (moved (node_of 9)), moved (node_of 7))]) some_array with
  | Ret _ r => map (fun i => option_map (fun x => index_of x (map moved ten)) (slot r (5 + i))) (seq 0 11)
  | _ => []
  end = map Some [2; 0; 1; 3; 4; 5; 6; 8; 9; 7; 10].
Proof. vm_compute. reflexivity. Qed.
(** [C44_hyp] and [C46_hyp]: the array holds the copies in the order of the base sequence *)
Example C44_random_run :
  match save SaveSeq.perm10 junk_state with
  | Ret ar _ => match r_load (fun _ => false) (map moved ten) (map (option_map moved) ar ++ [None]) some_array with
                | Ret tail r => (tail, map (fun i => slot r (5 + i)) (seq 0 11))
                | _ => ([], []) end
  | _ => ([], []) end = ([None], map Some (map moved SaveSeq.perm10 ++ [40])).
Proof. vm_compute. reflexivity. Qed.
Print Assumptions C46_rearrangements.
Print Assumptions C44_random_access.
Print Assumptions C44_random_access_any.
