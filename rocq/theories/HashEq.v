(** C27: comparison of hashed indices.
    Source: /repo/include/boost/multi_index/hashed_index.hpp:1189-1232 *)
From Verif Require Import Prelude Layer LayerBase.
Set Implicit Arguments.

(** ** Model *)
Section Equals.
Variable V K : Type.
Variable key : V -> K.
Variable veq : V -> V -> bool.       (* operator== of the elements *)
(** the states of two indices, *this and x; what is called of them *)
Variable SA SB : Type.
Variable hdA hdB : node.             (* end() *)
Variable callA : bool -> M SA bool.  (* a user call, which may throw *)
Variable sizeA : M SA nat.
Variable beginA : M SA node.
Variable nextA : node -> M SA node.
Variable valA : node -> M SA V.
Variable endrA : node -> M SA node.  (* end_of_range *)
Variable sizeB : M SB nat.
Variable nextB : node -> M SB node.
Variable valB : node -> M SB V.
Variable findB : K -> M SB node.
Variable rangeB : K -> M SB (node * node).
Notation PM := (M (SA * SB)).
Definition inA {A} (m : M SA A) : PM A := lensM fst (fun t s => (t, snd s)) m.
Definition inB {A} (m : M SB A) : PM A := lensM snd (fun t s => (fst s, t)) m.

(** for(;it!=it_end;++it){it2=x.find(key( *it)); if(it2==it2_end||!( *it==*it2))return false;} *)
Fixpoint u_loop (fuel : nat) (it : node) : PM bool :=
  match fuel with
  | O => ub
  | S f =>
    if it =? hdA then ret true
    else
      v <- inA (valA it) ;;
      it2 <- inB (findB (key v)) ;;
      if it2 =? hdB then ret false
      else
        v <- inA (valA it) ;; w <- inB (valB it2) ;;
        b <- inA (callA (veq v w)) ;;
        if b : bool then it <- inA (nextA it) ;; u_loop f it else ret false
  end.
(** equals(x,hashed_unique_tag), 1189-1199 *)
Definition u_equals : PM bool :=
  n <- inA sizeA ;; m <- inB sizeB ;;
  if n =? m then it <- inA beginA ;; u_loop (S n) it else ret false.

(** the nodes from [first] up to [last]; std::distance, std::find and std::count go through the range with ++ and
    apply == to the elements in turn *)
Fixpoint walk {S} (next : node -> M S node) (fuel : nat) (first last : node) : M S (list node) :=
  match fuel with
  | O => ub
  | Datatypes.S f => if first =? last then ret [] else n <- next first ;; l <- walk next f n last ;; ret (first :: l)
  end.
(** *i==*scan for i in *this, for i in x *)
Definition eqA (i scan : node) : PM bool := v <- inA (valA i) ;; w <- inA (valA scan) ;; inA (callA (veq v w)).
Definition eqB (i scan : node) : PM bool := v <- inB (valB i) ;; w <- inA (valA scan) ;; inA (callA (veq v w)).
(** std::find(it,scan,*scan)!=scan *)
Fixpoint found_before (l : list node) (scan : node) : PM bool :=
  match l with
  | [] => ret false
  | i :: l => b <- eqA i scan ;; if b : bool then ret true else found_before l scan
  end.
(** std::count *)
Fixpoint count_eq (e : node -> node -> PM bool) (l : list node) (scan : node) : PM nat :=
  match l with
  | [] => ret 0
  | i :: l => b <- e i scan ;; n <- count_eq e l scan ;; ret (if b : bool then S n else n)
  end.
(** for(;it!=it_last;++it,++it2)if(!( *it==*it2))break; what is left of both ranges *)
Fixpoint mismatch (l l2 : list node) : PM (list node * list node) :=
  match l, l2 with
  | i :: l', j :: l2' =>
    v <- inA (valA i) ;; w <- inB (valB j) ;; b <- inA (callA (veq v w)) ;;
    if b : bool then mismatch l' l2' else ret (l, l2)
  | [], _ => ret ([], l2)
  | _ :: _, [] => ub
  end.
(** for(scan=it;scan!=it_last;++scan){...}; [before]: from it to scan *)
Fixpoint scan_loop (before l l2 : list node) : PM bool :=
  match l with
  | [] => ret true
  | scan :: l' =>
    b <- found_before before scan ;;
    if b : bool then scan_loop (before ++ [scan]) l' l2
    else
      m <- count_eq eqB l2 scan ;;
      c <- (if m =? 0 then ret true else n <- count_eq eqA l scan ;; ret (negb (m =? n))) ;;
      if c : bool then ret false else scan_loop (before ++ [scan]) l' l2
  end.
(** for(it=begin();it!=it_end;){...} *)
Fixpoint n_loop (fuel : nat) (f2 : nat) (it : node) : PM bool :=
  match fuel with
  | O => ub
  | S f =>
    if it =? hdA then ret true
    else
      v <- inA (valA it) ;;
      r <- inB (rangeB (key v)) ;;
      let (it2, it2_last) := r : node * node in
      if it2 =? it2_last then ret false
      else
        it_last <- inA (endrA it) ;;
        l <- inA (walk nextA f2 it it_last) ;;
        l2 <- inB (walk nextB f2 it2 it2_last) ;;
        if negb (length l =? length l2) then ret false
        else
          r <- mismatch l l2 ;;
          b <- scan_loop [] (fst r) (snd r) ;;
          if b : bool then n_loop f f2 it_last else ret false
  end.
(** equals(x,hashed_non_unique_tag), 1201-1232 *)
Definition n_equals : PM bool :=
  n <- inA sizeA ;; m <- inB sizeB ;;
  if n =? m then it <- inA beginA ;; n_loop (S n) (S n) it else ret false.

(** ** Specification *)
(** up to ==, [ys] is a permutation of [xs] *)
Definition matched (xs ys : list V) : Prop :=
  exists ys', Permutation ys ys' /\ Forall2 (fun a b => veq a b = true) xs ys'.

(** ** Lists up to an equivalence *)
Hypothesis veq_refl : forall a, veq a a = true.
Hypothesis veq_sym : forall a b, veq a b = veq b a.
Hypothesis veq_trans : forall a b c, veq a b = true -> veq b c = true -> veq a c = true.
Definition cnt (v : V) (l : list V) : nat := length (filter (fun a => veq a v) l).
Lemma cnt_app v l l' : cnt v (l ++ l') = cnt v l + cnt v l'.
Proof. unfold cnt. now rewrite filter_app, app_length. Qed.
Lemma cnt_perm v l l' : Permutation l l' -> cnt v l = cnt v l'.
Proof. intros P. unfold cnt. apply Permutation_length. induction P; cbn; auto.
  - destruct (veq x v); auto.
  - destruct (veq x v), (veq y v); auto using perm_swap.
  - etransitivity; eauto.
Qed.
Lemma veq_same a b v : veq a b = true -> veq a v = veq b v.
Proof.
  intros E. destruct (veq b v) eqn:F; [eapply veq_trans; eauto|]. apply not_true_iff_false. intros G.
  rewrite veq_sym in E. rewrite (veq_trans E G) in F. discriminate.
Qed.
Lemma cnt_all v l l' : Forall2 (fun a b => veq a b = true) l l' -> cnt v l = cnt v l'.
Proof.
  unfold cnt. induction 1 as [|a b l l' E _ IH]; cbn; auto. rewrite (veq_same v E). destruct (veq b v); cbn; auto.
Qed.
Lemma matched_cnt xs ys : matched xs ys -> forall v, cnt v xs = cnt v ys.
Proof. intros (ys' & P & F) v. rewrite (cnt_perm v P). now apply cnt_all. Qed.
Lemma cnt_in v l : cnt v l <> 0 -> exists a l1 l2, l = l1 ++ a :: l2 /\ veq a v = true.
Proof.
  unfold cnt. intros N. destruct (filter (fun a => veq a v) l) as [|a r] eqn:E; [easy|].
  assert (J : In a (filter (fun a => veq a v) l)) by (rewrite E; now left). apply filter_In in J as (J & F).
  apply in_split in J as (l1 & l2 & ->). eauto.
Qed.
Lemma cnt_matched xs : forall ys, length xs = length ys -> (forall x, In x xs -> cnt x xs = cnt x ys) -> matched xs ys.
Proof.
  induction xs as [|x xs IH]; intros ys Ln H.
  - destruct ys; [|discriminate]. exists []. split; auto.
  - destruct (@cnt_in x ys) as (a & l1 & l2 & -> & E).
    { rewrite <- (H x) by now left. unfold cnt. cbn. rewrite veq_refl. discriminate. }
    destruct (IH (l1 ++ l2)) as (ys' & P & F).
    + rewrite app_length in *. cbn in Ln. lia.
    + intros y J. specialize (H y (or_intror J)). rewrite cnt_app in *. unfold cnt in H at 1 3. cbn [filter] in H.
      rewrite (veq_same y E) in H. unfold cnt in *. destruct (veq x y); cbn in H; lia.
    + exists (a :: ys'). split; [|constructor; auto; now rewrite veq_sym]. rewrite <- P. symmetry. apply Permutation_middle.
Qed.
Lemma matched_len xs ys : matched xs ys -> length xs = length ys.
Proof. intros (ys' & P & F). rewrite (Permutation_length P). clear P. induction F; cbn; auto. Qed.
Lemma matched_cons a b xs ys : veq a b = true -> matched (a :: xs) (b :: ys) <-> matched xs ys.
Proof.
  intros E. split.
  - intros M. assert (Ln := matched_len M). apply cnt_matched; [cbn in Ln; lia|]. intros x _. assert (C := matched_cnt M x).
    unfold cnt in *. cbn in C. rewrite (veq_same x E) in C. destruct (veq b x); cbn in C; lia.
  - intros (ys' & P & F). exists (b :: ys'). split; auto.
Qed.

(** ** Correctness *)
(** the states of the indices which differ in the number of user calls made *)
Variable throwsA throwsB : nat -> bool.
Variable QA : nat -> SA.
Variable QB : nat -> SB.
Definition RoA {A} (m : M SA A) (P : A -> Prop) : Prop := forall n,
  wp m (fun a st => P a /\ exists n', quiet throwsA n n' /\ st = QA n') (fun st => exists n', blown throwsA n n' /\ st = QA n') (QA n).
Definition RoB {A} (m : M SB A) (P : A -> Prop) : Prop := forall n,
  wp m (fun a st => P a /\ exists n', quiet throwsB n n' /\ st = QB n') (fun st => exists n', blown throwsB n n' /\ st = QB n') (QB n).
Definition Ro {A} (m : PM A) (P : A -> Prop) : Prop := forall n1 n2,
  wp m (fun a st => P a /\ exists m1 m2, quiet throwsA n1 m1 /\ quiet throwsB n2 m2 /\ st = (QA m1, QB m2))
    (fun st => exists m1 m2, (blown throwsA n1 m1 /\ quiet throwsB n2 m2 \/ quiet throwsA n1 m1 /\ blown throwsB n2 m2) /\ st = (QA m1, QB m2)) (QA n1, QB n2).
Lemma Ro_ret {A} (a : A) (P : A -> Prop) : P a -> Ro (ret a) P.
Proof. intros H n1 n2. apply wp_ret. split; auto. exists n1, n2. auto using quiet_refl. Qed.
Lemma Ro_bind {A B} (m : PM A) P (k : A -> PM B) P' : Ro m P -> (forall a, P a -> Ro (k a) P') -> Ro (bind m k) P'.
Proof.
  intros R H n1 n2. apply wp_bind. eapply wp_conseq; [apply R| |]; cbn; auto.
  intros a st (Pa & m1 & m2 & q1 & q2 & ->). eapply wp_conseq; [apply (H a Pa)| |]; cbn.
  - intros a' st (Pa' & k1 & k2 & r1 & r2 & ->). split; auto. exists k1, k2. splits; auto; eapply quiet_trans; eauto.
  - intros st (k1 & k2 & [(r1 & r2)|(r1 & r2)] & ->); exists k1, k2; split; auto; [left|right];
      split; solve [eapply quiet_trans; eauto|eapply blown_trans; eauto].
Qed.
Lemma Ro_conseq {A} (m : PM A) (P P' : A -> Prop) : Ro m P -> (forall a, P a -> P' a) -> Ro m P'.
Proof. intros R H n1 n2. eapply wp_conseq; [apply R| |]; cbn; auto. intros a st (Pa & r). auto. Qed.
Lemma Ro_A {A} (m : M SA A) P : RoA m P -> Ro (inA m) P.
Proof.
  intros R n1 n2. specialize (R n1). unfold wp, inA, lensM in *. cbn. destruct (m (QA n1)) as [a st|st|]; auto; cbn.
  - destruct R as (Pa & n' & q & ->). split; auto. exists n', n2. auto using quiet_refl.
  - destruct R as (n' & q & ->). exists n', n2. auto using quiet_refl.
Qed.
Lemma Ro_B {A} (m : M SB A) P : RoB m P -> Ro (inB m) P.
Proof.
  intros R n1 n2. specialize (R n2). unfold wp, inB, lensM in *. cbn. destruct (m (QB n2)) as [a st|st|]; auto; cbn.
  - destruct R as (Pa & n' & q & ->). split; auto. exists n1, n'. auto using quiet_refl.
  - destruct R as (n' & q & ->). exists n1, n'. auto using quiet_refl.
Qed.
Lemma RoA_ret {A} (a : A) (P : A -> Prop) : P a -> RoA (ret a) P.
Proof. intros H n. apply wp_ret. split; auto. exists n. auto using quiet_refl. Qed.
Lemma RoA_bind {A B} (m : M SA A) P (k : A -> M SA B) P' : RoA m P -> (forall a, P a -> RoA (k a) P') -> RoA (bind m k) P'.
Proof.
  intros R H n. apply wp_bind. eapply wp_conseq; [apply R| |]; cbn; auto.
  intros a st (Pa & n1 & q1 & ->). eapply wp_conseq; [apply (H a Pa)| |]; cbn.
  - intros a' st (Pa' & n2 & q2 & ->). split; auto. exists n2. split; auto. eapply quiet_trans; eauto.
  - intros st (n2 & q2 & ->). exists n2. split; auto. eapply blown_trans; eauto.
Qed.
Lemma RoB_ret {A} (a : A) (P : A -> Prop) : P a -> RoB (ret a) P.
Proof. intros H n. apply wp_ret. split; auto. exists n. auto using quiet_refl. Qed.
Lemma RoB_bind {A B} (m : M SB A) P (k : A -> M SB B) P' : RoB m P -> (forall a, P a -> RoB (k a) P') -> RoB (bind m k) P'.
Proof.
  intros R H n. apply wp_bind. eapply wp_conseq; [apply R| |]; cbn; auto.
  intros a st (Pa & n1 & q1 & ->). eapply wp_conseq; [apply (H a Pa)| |]; cbn.
  - intros a' st (Pa' & n2 & q2 & ->). split; auto. exists n2. split; auto. eapply quiet_trans; eauto.
  - intros st (n2 & q2 & ->). exists n2. split; auto. eapply blown_trans; eauto.
Qed.

(** the elements and their values, and what the operations answer *)
Variable lA lB : list node.
Variable vA vB : node -> V.
Variable eq : K -> K -> bool.
Hypothesis eq_refl' : forall k, eq k k = true.
Hypothesis eq_sym' : forall k k', eq k k' = eq k' k.
Hypothesis eq_trans' : forall k k' k'', eq k k' = true -> eq k' k'' = true -> eq k k'' = true.
Definition ofA (k : K) : list node := filter (fun y => eq k (key (vA y))) lA.
Definition ofB (k : K) : list node := filter (fun y => eq k (key (vB y))) lB.
Hypothesis NA : NoDup (hdA :: lA).
Hypothesis NB : NoDup (hdB :: lB).
Hypothesis HcallA : forall b, RoA (callA b) (fun r => r = b).
Hypothesis HsizeA : RoA sizeA (fun n => n = length lA).
Hypothesis HbeginA : RoA beginA (fun r => r = hd hdA lA).
Hypothesis HnextA : forall l1 x l2, lA = l1 ++ x :: l2 -> RoA (nextA x) (fun r => r = hd hdA l2).
Hypothesis HvalA : forall x, In x lA -> RoA (valA x) (fun v => v = vA x).
Hypothesis HsizeB : RoB sizeB (fun n => n = length lB).
Hypothesis HnextB : forall l1 x l2, lB = l1 ++ x :: l2 -> RoB (nextB x) (fun r => r = hd hdB l2).
Hypothesis HvalB : forall x, In x lB -> RoB (valB x) (fun v => v = vB x).

Lemma Ro_valA {B} x (k : V -> PM B) P : In x lA -> Ro (k (vA x)) P -> Ro (bind (inA (valA x)) k) P.
Proof. intros I H. eapply Ro_bind; [apply Ro_A, HvalA; auto|]. intros a ->. exact H. Qed.
Lemma Ro_valB {B} x (k : V -> PM B) P : In x lB -> Ro (k (vB x)) P -> Ro (bind (inB (valB x)) k) P.
Proof. intros I H. eapply Ro_bind; [apply Ro_B, HvalB; auto|]. intros a ->. exact H. Qed.
Lemma Ro_call {B} b (k : bool -> PM B) P : Ro (k b) P -> Ro (bind (inA (callA b)) k) P.
Proof. intros H. eapply Ro_bind; [apply Ro_A, HcallA|]. intros a ->. exact H. Qed.
Lemma Ro_call1 b (P : bool -> Prop) : P b -> Ro (inA (callA b)) P.
Proof. intros H. eapply Ro_conseq; [apply Ro_A, HcallA|]. intros a ->. exact H. Qed.

Lemma walkA_ok : forall g fuel l1 l3, length g < fuel -> lA = l1 ++ g ++ l3 -> RoA (walk nextA fuel (hd hdA (g ++ l3)) (hd hdA l3)) (fun r => r = g).
Proof.
  induction g as [|x g IH]; intros fuel l1 l3 L E; destruct fuel as [|fuel]; cbn [length] in L; try lia; cbn [walk app hd].
  - rewrite Nat.eqb_refl. now apply RoA_ret.
  - destruct (Nat.eqb_spec x (hd hdA l3)) as [X|_].
    { exfalso. apply NoDup_cons_iff in NA as (N1 & N2). rewrite E in N1, N2. destruct l3 as [|y l3]; cbn in X; subst.
      - apply N1. rewrite in_app_iff. cbn. auto.
      - apply NoDup_app_iff in N2 as (_ & N2 & _). cbn in N2. apply NoDup_cons_iff in N2 as (N2 & _). apply N2. rewrite in_app_iff. cbn. auto. }
    eapply RoA_bind; [apply (HnextA l1 x (g ++ l3)); auto|]. intros a ->.
    eapply RoA_bind; [apply (IH _ (l1 ++ [x])); [lia|now rewrite <- app_assoc]|]. intros r ->. now apply RoA_ret.
Qed.
Lemma walkB_ok : forall g fuel l1 l3, length g < fuel -> lB = l1 ++ g ++ l3 -> RoB (walk nextB fuel (hd hdB (g ++ l3)) (hd hdB l3)) (fun r => r = g).
Proof.
  induction g as [|x g IH]; intros fuel l1 l3 L E; destruct fuel as [|fuel]; cbn [length] in L; try lia; cbn [walk app hd].
  - rewrite Nat.eqb_refl. now apply RoB_ret.
  - destruct (Nat.eqb_spec x (hd hdB l3)) as [X|_].
    { exfalso. apply NoDup_cons_iff in NB as (N1 & N2). rewrite E in N1, N2. destruct l3 as [|y l3]; cbn in X; subst.
      - apply N1. rewrite in_app_iff. cbn. auto.
      - apply NoDup_app_iff in N2 as (_ & N2 & _). cbn in N2. apply NoDup_cons_iff in N2 as (N2 & _). apply N2. rewrite in_app_iff. cbn. auto. }
    eapply RoB_bind; [apply (HnextB l1 x (g ++ l3)); auto|]. intros a ->.
    eapply RoB_bind; [apply (IH _ (l1 ++ [x])); [lia|now rewrite <- app_assoc]|]. intros r ->. now apply RoB_ret.
Qed.

Lemma eqA_ok i scan : In i lA -> In scan lA -> Ro (eqA i scan) (fun r => r = veq (vA i) (vA scan)).
Proof. intros. apply Ro_valA; auto. apply Ro_valA; auto. now apply Ro_call1. Qed.
Lemma eqB_ok i scan : In i lB -> In scan lA -> Ro (eqB i scan) (fun r => r = veq (vB i) (vA scan)).
Proof. intros. apply Ro_valB; auto. apply Ro_valA; auto. now apply Ro_call1. Qed.
Lemma found_before_ok l scan : incl l lA -> In scan lA -> Ro (found_before l scan) (fun r => r = negb (cnt (vA scan) (map vA l) =? 0)).
Proof.
  intros J Js. induction l as [|i l IH]; cbn [found_before map].
  - now apply Ro_ret.
  - eapply Ro_bind; [apply eqA_ok; auto; apply J; now left|]. intros b ->. unfold cnt. cbn [filter]. destruct (veq (vA i) (vA scan)).
    + now apply Ro_ret.
    + apply IH. intros y Y. apply J. now right.
Qed.
Lemma countA_ok l scan : incl l lA -> In scan lA -> Ro (count_eq eqA l scan) (fun r => r = cnt (vA scan) (map vA l)).
Proof.
  intros J Js. induction l as [|i l IH]; cbn [count_eq map].
  - now apply Ro_ret.
  - eapply Ro_bind; [apply eqA_ok; auto; apply J; now left|]. intros b ->.
    eapply Ro_bind; [apply IH; intros y Y; apply J; now right|]. intros n ->. apply Ro_ret. unfold cnt. cbn [filter].
    destruct (veq (vA i) (vA scan)); reflexivity.
Qed.
Lemma countB_ok l scan : incl l lB -> In scan lA -> Ro (count_eq eqB l scan) (fun r => r = cnt (vA scan) (map vB l)).
Proof.
  intros J Js. induction l as [|i l IH]; cbn [count_eq map].
  - now apply Ro_ret.
  - eapply Ro_bind; [apply eqB_ok; auto; apply J; now left|]. intros b ->.
    eapply Ro_bind; [apply IH; intros y Y; apply J; now right|]. intros n ->. apply Ro_ret. unfold cnt. cbn [filter].
    destruct (veq (vB i) (vA scan)); reflexivity.
Qed.
Lemma mismatch_ok l : forall l2, length l = length l2 -> incl l lA -> incl l2 lB ->
  Ro (mismatch l l2) (fun r => incl (fst r) lA /\ incl (snd r) lB /\ length (fst r) = length (snd r) /\
    (matched (map vA l) (map vB l2) <-> matched (map vA (fst r)) (map vB (snd r)))).
Proof.
  induction l as [|i l IH]; intros [|j l2] Ln Ja Jb; try discriminate; cbn [mismatch].
  - apply Ro_ret. cbn. tauto.
  - apply Ro_valA; [apply Ja; now left|]. apply Ro_valB; [apply Jb; now left|]. apply Ro_call. destruct (veq (vA i) (vB j)) eqn:E.
    + eapply Ro_conseq; [apply IH; [cbn in Ln; lia|intros y Y; apply Ja; now right|intros y Y; apply Jb; now right]|].
      cbn beta. intros r (A & B & C & D). splits; auto. cbn [map]. rewrite matched_cons; auto.
    + apply Ro_ret. cbn [fst snd]. splits; auto. tauto.
Qed.
Lemma scan_ok l : forall before l2, incl (before ++ l) lA -> incl l2 lB -> length (before ++ l) = length l2 ->
  (forall x, In x before -> cnt (vA x) (map vA (before ++ l)) = cnt (vA x) (map vB l2)) ->
  Ro (scan_loop before l l2) (fun r => r = true <-> matched (map vA (before ++ l)) (map vB l2)).
Proof.
  induction l as [|scan l IH]; intros before l2 Ja Jb Ln H; cbn [scan_loop].
  - apply Ro_ret. split; auto. intros _. apply cnt_matched; [now rewrite !map_length|]. rewrite app_nil_r in *.
    intros v J. apply in_map_iff in J as (x & <- & J). auto.
  - assert (Js : In scan lA) by (apply Ja; rewrite in_app_iff; cbn; auto).
    assert (Sh : before ++ scan :: l = (before ++ [scan]) ++ l) by now rewrite <- app_assoc.
    assert (Jb' : incl before lA) by (intros y Y; apply Ja; rewrite in_app_iff; auto).
    eapply Ro_bind; [apply found_before_ok; auto|]. intros b ->.
    assert (Nx : cnt (vA scan) (map vA (before ++ scan :: l)) = cnt (vA scan) (map vB l2) ->
       Ro (scan_loop (before ++ [scan]) l l2) (fun r => r = true <-> matched (map vA (before ++ scan :: l)) (map vB l2))).
    { intros E. rewrite Sh in *. apply IH; auto. intros x X. rewrite in_app_iff in X. destruct X as [X|[<-|[]]]; auto. }
    destruct (Nat.eqb_spec (cnt (vA scan) (map vA before)) 0) as [Z|Z]; cbn [negb].
    + eapply Ro_bind; [apply countB_ok; auto|]. intros m ->.
      assert (C : cnt (vA scan) (map vA (before ++ scan :: l)) = cnt (vA scan) (map vA (scan :: l))) by (rewrite map_app, cnt_app; lia).
      assert (Jl : incl (scan :: l) lA) by (intros y Y; apply Ja; rewrite in_app_iff; auto).
      apply Ro_bind with (P := fun c => c = negb (cnt (vA scan) (map vB l2) =? cnt (vA scan) (map vA (scan :: l)))).
      * destruct (Nat.eqb_spec (cnt (vA scan) (map vB l2)) 0) as [Y|Y].
        -- apply Ro_ret. rewrite Y. unfold cnt. cbn [map filter]. now rewrite veq_refl.
        -- eapply Ro_bind; [apply countA_ok; auto|]. intros n ->. now apply Ro_ret.
      * intros c ->. destruct (Nat.eqb_spec (cnt (vA scan) (map vB l2)) (cnt (vA scan) (map vA (scan :: l)))) as [Y|Y]; cbn [negb].
        -- apply Nx. now rewrite C.
        -- apply Ro_ret. split; [discriminate|]. intros M. elim Y. rewrite <- C. symmetry. now apply matched_cnt.
    + apply Nx. destruct (@cnt_in _ _ Z) as (a & k1 & k2 & E & F). assert (Jx : In a (map vA before)) by (rewrite E, in_app_iff; cbn; auto).
      apply in_map_iff in Jx as (x & <- & X). specialize (H x X). unfold cnt in *.
      rewrite !(filter_ext (fun a => veq a (vA scan)) (fun a => veq a (vA x))); auto; intros a; rewrite (veq_sym a (vA scan)), (veq_sym a (vA x)); symmetry; now apply veq_same.
Qed.

(** ** The loops over the classes of equivalent elements *)
Notation keyA x := (key (vA x)).
Notation keyB y := (key (vB y)).
Lemma eq_same k k' k'' : eq k k' = true -> eq k k'' = eq k' k''.
Proof.
  intros E. destruct (eq k' k'') eqn:F; [eapply eq_trans'; eauto|]. apply not_true_iff_false. intros G.
  rewrite eq_sym' in E. rewrite (eq_trans' E G) in F. discriminate.
Qed.
Lemma ofA_same k k' : eq k k' = true -> ofA k = ofA k'.
Proof. intros E. apply filter_ext. intros y. now apply eq_same. Qed.
Lemma ofB_same k k' : eq k k' = true -> ofB k = ofB k'.
Proof. intros E. apply filter_ext. intros y. now apply eq_same. Qed.
Lemma own_class x : In x lA -> In x (ofA (keyA x)).
Proof. intros J. apply filter_In. auto. Qed.
Definition good (x : node) : Prop := matched (map vA (ofA (keyA x))) (map vB (ofB (keyA x))).
Lemma not_end l1 x l2 : lA = l1 ++ x :: l2 -> x <> hdA.
Proof. intros E ->. apply NoDup_cons_iff in NA as (N & _). apply N. rewrite E, in_app_iff. cbn. auto. Qed.

Section NonUnique.
Hypothesis HendrA : forall l1 x l2, lA = l1 ++ x :: l2 -> (forall y, In y l1 -> eq (keyA x) (keyA y) = false) ->
  RoA (endrA x) (fun r => exists l3, x :: l2 = ofA (keyA x) ++ l3 /\ r = hd hdA l3).
Hypothesis HrangeB : forall k, RoB (rangeB k) (fun r => exists l1 l2, lB = l1 ++ ofB k ++ l2 /\
  r = match ofB k with [] => (hdB, hdB) | y :: _ => (y, hd hdB l2) end).
Lemma n_loop_ok f2 : length lA < f2 -> length lB < f2 -> forall fuel pre rest, length rest < fuel -> lA = pre ++ rest ->
  (forall x y, In x pre -> In y rest -> eq (keyA y) (keyA x) = false) ->
  Ro (n_loop fuel f2 (hd hdA rest)) (fun r => r = true <-> forall x, In x rest -> good x).
Proof.
  intros F1 F2. induction fuel as [|fuel IH]; intros pre rest L E Sp; [lia|]. cbn [n_loop]. destruct rest as [|x rest]; cbn [hd].
  - rewrite Nat.eqb_refl. apply Ro_ret. cbn. tauto.
  - rewrite (proj2 (Nat.eqb_neq _ _) (@not_end _ _ _ E)). assert (Jx : In x lA) by (rewrite E, in_app_iff; cbn; auto).
    apply Ro_valA; auto. eapply Ro_bind; [apply Ro_B, HrangeB|]. cbn beta. intros r (b1 & b2 & Eb & ->). set (k := keyA x) in *.
    assert (Ox := own_class _ Jx). fold k in Ox. destruct (ofB k) as [|y g2] eqn:Eg.
    + rewrite Nat.eqb_refl. apply Ro_ret. split; [discriminate|]. intros H. specialize (H x (or_introl (Logic.eq_refl))).
      unfold good in H. fold k in H. rewrite Eg in H. apply matched_len in H. cbn in H. rewrite map_length in H.
      destruct (ofA k); [easy|discriminate].
    + destruct (Nat.eqb_spec y (hd hdB b2)) as [X|_].
      { exfalso. apply NoDup_cons_iff in NB as (N1 & N2). rewrite Eb in N1, N2. destruct b2 as [|z b2]; cbn in X; subst.
        - apply N1. rewrite !in_app_iff. cbn. auto.
        - apply NoDup_app_iff in N2 as (_ & N2 & _). cbn in N2. apply NoDup_cons_iff in N2 as (N2 & _). apply N2. rewrite in_app_iff. cbn. auto. }
      eapply Ro_bind; [apply Ro_A, (@HendrA _ _ _ E); intros z Z; apply Sp; [auto|now left]|]. cbn beta. intros r (l3 & E3 & ->).
      fold k in E3. assert (Ef : x = hd hdA (ofA k ++ l3)) by now rewrite <- E3.
      assert (EA : lA = pre ++ ofA k ++ l3) by now rewrite <- E3.
      eapply Ro_bind; [rewrite Ef; apply Ro_A; eapply walkA_ok; [|exact EA]|]. { rewrite EA, !app_length in F1. lia. }
      intros r ->. apply Ro_bind with (P := fun r => r = y :: g2).
      { change y with (hd hdB ((y :: g2) ++ b2)). apply Ro_B; eapply walkB_ok; [|exact Eb]. rewrite Eb, !app_length in F2. cbn in *. lia. }
      intros r ->. rewrite <- Eg.
      assert (Ia : incl (ofA k) lA) by (intros z Z; now apply filter_In in Z).
      assert (Ib : incl (ofB k) lB) by (intros z Z; now apply filter_In in Z).
      assert (Class : forall z, In z (ofA k) -> good z <-> good x).
      { intros z Z. apply filter_In in Z as (_ & Z). unfold good. fold k. now rewrite <- (ofA_same Z), <- (ofB_same Z). }
      assert (Inx : forall z, In z (x :: rest) <-> In z (ofA k) \/ In z l3) by (intros z; rewrite E3, in_app_iff; tauto).
      destruct (Nat.eqb_spec (length (ofA k)) (length (ofB k))) as [Ln|Ln]; cbn [negb].
      * eapply Ro_bind; [apply mismatch_ok; auto|]. intros (m1, m2) (M1 & M2 & M3 & M4). cbn [fst snd] in *.
        eapply Ro_bind; [apply (@scan_ok m1 [] m2); auto; intros z []|]. cbn [app]. cbn beta. intros b Hb. rewrite <- M4 in Hb.
        change (matched (map vA (ofA k)) (map vB (ofB k))) with (good x) in Hb. destruct b.
        -- assert (Gx : good x) by now apply Hb. eapply Ro_conseq; [apply (IH (pre ++ ofA k) l3)|].
           ++ apply (f_equal (@length _)) in E3. rewrite app_length in E3. cbn in E3, L. destruct (ofA k); [easy|]. cbn in E3. lia.
           ++ now rewrite <- app_assoc.
           ++ intros a z Ha Z. rewrite in_app_iff in Ha. destruct Ha as [Ha|Ha].
              ** apply Sp; auto. apply Inx. auto.
              ** apply not_true_iff_false. intros Eq. apply filter_In in Ha as (_ & Ha).
                 assert (Nd : NoDup (ofA k ++ l3)) by (rewrite <- E3; apply NoDup_cons_iff in NA as (_ & N); rewrite E in N; now apply NoDup_app_iff in N).
                 apply NoDup_app_iff in Nd as (_ & _ & Nd). apply (Nd z); auto. apply filter_In. split; [rewrite EA, !in_app_iff; auto|].
                 rewrite (eq_same _ Ha). now rewrite eq_sym'.
           ++ intros r ->. split; intros H z Z; [apply Inx in Z as [Z|Z]; [now apply Class|auto]|apply H, Inx; auto].
        -- apply Ro_ret. split; [discriminate|]. intros H. apply Hb, H. now left.
      * apply Ro_ret. split; [discriminate|]. intros H. specialize (H x (or_introl Logic.eq_refl)). apply matched_len in H.
        rewrite !map_length in H. now fold k in H.
Qed.
End NonUnique.

Section Unique.
Hypothesis UA : forall k, length (ofA k) <= 1.
Hypothesis UB : forall k, length (ofB k) <= 1.
Hypothesis HfindB : forall k, RoB (findB k) (fun r => r = hd hdB (ofB k)).
Lemma matched_one a b : matched [a] [b] <-> veq a b = true.
Proof.
  split.
  - intros (ys & P & F). apply Permutation_length_1_inv in P. subst. now inversion F.
  - intros E. exists [b]. split; auto.
Qed.
Lemma u_loop_ok : forall fuel pre rest, length rest < fuel -> lA = pre ++ rest ->
  Ro (u_loop fuel (hd hdA rest)) (fun r => r = true <-> forall x, In x rest -> good x).
Proof.
  induction fuel as [|fuel IH]; intros pre rest L E; [lia|]. cbn [u_loop]. destruct rest as [|x rest]; cbn [hd].
  - rewrite Nat.eqb_refl. apply Ro_ret. cbn. tauto.
  - rewrite (proj2 (Nat.eqb_neq _ _) (@not_end _ _ _ E)). assert (Jx : In x lA) by (rewrite E, in_app_iff; cbn; auto).
    apply Ro_valA; auto. eapply Ro_bind; [apply Ro_B, HfindB|]. cbn beta. intros r ->. set (k := keyA x).
    assert (Ox := own_class _ Jx). fold k in Ox.
    assert (Ea : ofA k = [x]). { specialize (UA k). destruct (ofA k) as [|z [|]]; cbn in *; try easy; [|lia]. destruct Ox as [->|[]]. auto. }
    assert (Gx : good x <-> matched [vA x] (map vB (ofB k))) by (unfold good; fold k; now rewrite Ea).
    assert (UBk := UB k). destruct (ofB k) as [|y [|]] eqn:Eg; cbn [hd]; [| |cbn in UBk; lia].
    + rewrite Nat.eqb_refl. apply Ro_ret. split; [discriminate|]. intros H. specialize (H x (or_introl (Logic.eq_refl))).
      apply Gx, matched_len in H. discriminate.
    + assert (Jy : In y lB). { assert (J : In y (ofB k)) by (rewrite Eg; now left). now apply filter_In in J. }
      destruct (Nat.eqb_spec y hdB) as [->|_]. { apply NoDup_cons_iff in NB. tauto. }
      apply Ro_valA; auto. apply Ro_valB; auto. apply Ro_call. cbn [map] in Gx. rewrite matched_one in Gx. destruct (veq (vA x) (vB y)).
      * eapply Ro_bind; [apply Ro_A, (@HnextA _ _ _ E)|]. intros a ->. eapply Ro_conseq; [apply (IH (pre ++ [x])); [cbn in L; lia|now rewrite <- app_assoc]|].
        intros r ->. split; intros H z Z; [destruct Z as [<-|Z]; [now apply Gx|auto]|apply H; now right].
      * apply Ro_ret. split; [discriminate|]. intros H. apply Gx, H. now left.
Qed.
End Unique.

Lemma filter_none {A} (p : A -> bool) l : (forall x, In x l -> p x = false) -> filter p l = [].
Proof. intros H. induction l as [|x l IH]; cbn; auto. rewrite H by now left. apply IH. intros y Y. apply H. now right. Qed.
Lemma filter_same_length {A} (p : A -> bool) l : length (filter p l) = length l -> filter p l = l.
Proof.
  induction l as [|x l IH]; cbn; auto. destruct (p x); cbn; intros E; [f_equal; auto|].
  assert (H : length (filter p l) <= length l); [|lia]. clear. induction l as [|y l IH]; cbn; auto. destruct (p y); cbn; lia.
Qed.
(** when the classes of all elements match, there is nothing more *)
Lemma covered_len : forall n LA (LB : list node), length LA <= n ->
  (forall x, In x LA -> length (filter (fun y => eq (keyA x) (keyA y)) LA) = length (filter (fun y => eq (keyA x) (keyB y)) LB)) ->
  length (filter (fun y => existsb (fun x => eq (keyA x) (keyB y)) LA) LB) = length LA.
Proof.
  induction n as [|n IH]; intros LA LB L H.
  - destruct LA; [|cbn in L; lia]. cbn. now rewrite filter_none by auto.
  - destruct LA as [|x LA]; [cbn; now rewrite filter_none by auto|]. set (A := x :: LA) in *.
    set (A' := filter (fun y => negb (eq (keyA x) (keyA y))) A).
    assert (Sp : forall (T : Type) (p : T -> bool) (l : list T), length l = length (filter p l) + length (filter (fun y => negb (p y)) l)).
    { intros T p l. induction l as [|y l IHl]; cbn; auto. destruct (p y); cbn; lia. }
    assert (LA' : length A = length (filter (fun y => eq (keyA x) (keyA y)) A) + length A') by apply Sp.
    rewrite (Sp _ (fun y => eq (keyA x) (keyB y))). rewrite LA'. f_equal.
    + rewrite (H x (or_introl Logic.eq_refl)). f_equal. rewrite filter_filter. apply filter_ext. intros y. cbn.
      destruct (eq (keyA x) (keyB y)); cbn; auto. now rewrite andb_false_r.
    + rewrite <- (IH A' LB).
      * f_equal. rewrite filter_filter. apply filter_ext. intros y. destruct (eq (keyA x) (keyB y)) eqn:F; cbn [negb andb].
        -- rewrite andb_false_r. symmetry. apply not_true_iff_false. intros G. apply existsb_exists in G as (z & Z & G).
           apply filter_In in Z as (_ & Z). apply negb_true_iff in Z. rewrite (eq_same _ F), eq_sym', G in Z. discriminate.
        -- rewrite andb_true_r. apply eq_true_iff_eq. rewrite !existsb_exists. split; intros (z & Z & G).
           ++ exists z. split; auto. apply filter_In. split; auto. apply negb_true_iff. apply not_true_iff_false. intros Q.
              rewrite (eq_same _ Q), G in F. discriminate.
           ++ apply filter_In in Z as (Z & _). eauto.
      * assert (0 < length (filter (fun y => eq (keyA x) (keyA y)) A)); [|lia]. unfold A. cbn. rewrite eq_refl'. cbn. lia.
      * intros z Z. apply filter_In in Z as (Z & Nz). rewrite <- (H z Z). f_equal. unfold A'. rewrite filter_filter. apply filter_ext.
        intros y. destruct (eq (keyA z) (keyA y)) eqn:F; cbn; [|now rewrite andb_false_r]. rewrite andb_true_r.
        apply negb_true_iff in Nz. apply negb_true_iff. rewrite eq_sym', <- (eq_same _ F), eq_sym'. exact Nz.
Qed.
Lemma all_good : length lA = length lB -> (forall x, In x lA -> good x) ->
  forall k, matched (map vA (ofA k)) (map vB (ofB k)).
Proof.
  intros Ln G k. assert (C := @covered_len (length lA) lA lB (le_n _)).
  assert (H : forall x, In x lA -> length (filter (fun y => eq (keyA x) (keyA y)) lA) = length (filter (fun y => eq (keyA x) (keyB y)) lB)).
  { intros x J. specialize (G x J). apply matched_len in G. now rewrite !map_length in G. }
  specialize (C H). rewrite Ln in C.
  destruct (ofA k) as [|x r] eqn:E.
  - destruct (ofB k) as [|y r] eqn:F; [exists []; split; constructor|]. exfalso.
    assert (J : In y (ofB k)) by (rewrite F; now left). apply filter_In in J as (J & K').
    assert (J' := J). rewrite <- (filter_same_length _ _ C) in J'. apply filter_In in J' as (_ & J'). apply existsb_exists in J' as (x & Jx & Q).
    assert (X : In x (ofA k)). { apply filter_In. split; auto. rewrite (eq_same _ K'), eq_sym'. exact Q. }
    rewrite E in X. exact X.
  - assert (J : In x (ofA k)) by (rewrite E; now left). apply filter_In in J as (J & Q). rewrite <- E.
    rewrite (ofA_same Q), (ofB_same Q). now apply G.
Qed.
Definition equal_indices : Prop := length lA = length lB /\ forall k, matched (map vA (ofA k)) (map vB (ofB k)).
Lemma n_equals_ok :
  (forall l1 x l2, lA = l1 ++ x :: l2 -> (forall y, In y l1 -> eq (keyA x) (keyA y) = false) ->
    RoA (endrA x) (fun r => exists l3, x :: l2 = ofA (keyA x) ++ l3 /\ r = hd hdA l3)) ->
  (forall k, RoB (rangeB k) (fun r => exists l1 l2, lB = l1 ++ ofB k ++ l2 /\
    r = match ofB k with [] => (hdB, hdB) | y :: _ => (y, hd hdB l2) end)) ->
  Ro n_equals (fun r => r = true <-> equal_indices).
Proof.
  intros H1 H2. unfold n_equals. eapply Ro_bind; [apply Ro_A, HsizeA|]. intros n ->. eapply Ro_bind; [apply Ro_B, HsizeB|]. intros m ->.
  destruct (Nat.eqb_spec (length lA) (length lB)) as [E|E].
  - eapply Ro_bind; [apply Ro_A, HbeginA|]. intros it ->. eapply Ro_conseq; [eapply n_loop_ok with (pre := []); eauto; try lia; intros ? ? []|].
    intros r ->. split.
    + intros G. split; auto. now apply all_good.
    + intros (_ & G) x _. apply G.
  - apply Ro_ret. split; [discriminate|]. intros (F & _). contradiction.
Qed.
Lemma u_equals_ok :
  (forall k, length (ofA k) <= 1) -> (forall k, length (ofB k) <= 1) -> (forall k, RoB (findB k) (fun r => r = hd hdB (ofB k))) ->
  Ro u_equals (fun r => r = true <-> equal_indices).
Proof.
  intros H1 H2 H3. unfold u_equals. eapply Ro_bind; [apply Ro_A, HsizeA|]. intros n ->. eapply Ro_bind; [apply Ro_B, HsizeB|]. intros m ->.
  destruct (Nat.eqb_spec (length lA) (length lB)) as [E|E].
  - eapply Ro_bind; [apply Ro_A, HbeginA|]. intros it ->. eapply Ro_conseq; [eapply u_loop_ok with (pre := []); eauto|].
    intros r ->. split.
    + intros G. split; auto. now apply all_good.
    + intros (_ & G) x _. apply G.
  - apply Ro_ret. split; [discriminate|]. intros (F & _). contradiction.
Qed.
End Equals.
