(** C27: comparison of hashed indices of two containers. *)
From Coq Require Import NArith.
From Verif Require Import Prelude Layer LayerBase HashModel HashHeap HashLay HashSpec HashSeq HashIdx HashPoint HashLayer HashRehash HashOk HashView
  Stack View Container ContOk Iops Up Down History ContSpec Client ContEx ContProps Focus HashExact HashProps.
Set Implicit Arguments.
Local Arguments bcount : simpl never.

(** ** What a hashed index of a container answers *)
Section Side.
Variable V : Type.
Variable throws : nat -> bool.
Variable pick : list node -> node.
Variable dv : V.
Variable hd : node.
Variables cs1 cs2 : list (code V).
Variable K : Type.
Variable key : V -> K.
Variable eq : K -> K -> bool.
Variable hash : K -> nat.
Variable uniq : bool.
Variable jh : bptr * bptr.
Variable n0 : nat.
Variable pl : policy.
Notation this := (Hashed key eq hash uniq jh n0 pl).
Notation all := (all cs1 cs2 this).
Notation box := (box throws pick hd all).
Notation value_of := (@value_of V throws pick dv hd all).
Notation calls := (@calls V throws pick hd all).
Notation sup := (stack throws pick hd (mem_world V) cs2).
Notation this_of := (@down V throws pick hd (mem_world V) (this :: cs2) cs1).
Notation holds := (@holds V throws pick hd cs1 cs2 this).
Notation matching s := (@matching V throws pick dv hd cs1 cs2 K key eq hash uniq jh n0 pl s).
Hypothesis St_ : setting pick hd all.
Variable s : St box.
Variables lk nh l : list node.
Hypothesis R : @reachable V throws pick hd all s lk nh.
Hypothesis H : holds s l.
Notation t0 := (fst (this_of s)).
Notation sp0 := (snd (this_of s)).
Notation Ro m P := (@HashPoint.Ro V throws sup t0 sp0 _ m P).
Notation OKs := (Focus.sup_ok throws dv cs1 cs2 this St_).

Lemma Ro_of_bind A (m : M (hst * St sup) A) P : Ro (bind m ret) P -> Ro m P.
Proof. intros W n. specialize (W n). unfold wp, bind, ret in *. destruct (m _); auto. Qed.
Lemma op : exists t sp I G, opened throws pick dv hd cs1 cs2 key eq hash uniq jh n0 pl s lk l t sp I G /\ t = t0 /\ sp = sp0.
Proof.
  destruct (open_hash dv St_ R H) as (t & sp & I & G & Op). exists t, sp, I, G. split; auto. rewrite (op_st Op). auto.
Qed.
Lemma e_call (b : bool) : Ro (HashIdx.ucall throws sup b) (fun r => r = b).
Proof. apply Ro_of_bind, (Ro_ucall OKs), Ro_ret. reflexivity. Qed.
Lemma e_size : Ro (supM (size sup)) (fun n => n = length l).
Proof. destruct op as (t & sp & I & G & Op & -> & ->). apply Ro_of_bind, (Ro_size OKs), Ro_ret. apply (op_sz Op). Qed.
Lemma hhas_at : exists n I, HashOk.hhas uniq hd t0 (n, I) /\ elems I = l.
Proof.
  destruct op as (t & sp & I & G & Op & -> & ->). exists (bc t0), I. split; [|apply (op_el Op)].
  assert (Hs := op_hs Op). rewrite app_nil_r in Hs. unfold HashOk.hhas. cbn [fst snd]. splits; auto; apply Op.
Qed.
Lemma Ro_exact A (m : M (hst * St sup) A) a (P : A -> Prop) : (forall s1, m (t0, s1) = Ret a (t0, s1)) -> P a -> Ro m P.
Proof. intros E Pa n. unfold wp. rewrite E. split; auto. exists n. auto using quiet_refl. Qed.
Lemma e_begin : Ro (h_begin hd sup) (fun r => r = List.hd hd l).
Proof. destruct hhas_at as (n & I & Hh & <-). eapply Ro_exact; [intros s1; exact (h_begin_ok sup s1 Hh)|reflexivity]. Qed.
Lemma e_next l1 x l2 : l = l1 ++ x :: l2 -> Ro (h_next uniq sup x) (fun r => r = List.hd hd l2).
Proof.
  intros E. destruct hhas_at as (n & I & Hh & El). rewrite E in El.
  eapply Ro_exact; [intros s1; exact (h_next_ok sup s1 l1 x l2 Hh El)|reflexivity].
Qed.
Lemma e_val x : In x l -> Ro (HashIdx.oval sup x) (fun v => v = value_of s x).
Proof.
  intros J. destruct op as (t & sp & I & G & Op & -> & ->). apply Ro_of_bind, (Ro_val OKs).
  - apply (op_lv Op). now rewrite (op_el Op).
  - apply Ro_ret. now rewrite (op_vals Op).
Qed.
Lemma e_endr l1 x l2 : l = l1 ++ x :: l2 -> (forall y, In y l1 -> eq (key (value_of s x)) (key (value_of s y)) = false) ->
  Ro (end_of_range throws key eq uniq sup x) (fun r => exists l3, x :: l2 = matching s (eq (key (value_of s x))) l ++ l3 /\ r = List.hd hd l3).
Proof.
  intros E Nf. destruct op as (t & sp & I & G & Op & -> & ->). assert (Hq := Focus.this_code_ok cs1 cs2 this St_ : heq_ok eq hash).
  assert (CL := op_cl Op). destruct CL as (EI & Fc & Fa). assert (El := op_el Op).
  assert (EG : elems I = elems G) by (rewrite EI; apply elems_flat).
  assert (Jx : In x (elems G)) by (rewrite <- EG, El, E, in_app_iff; cbn; auto).
  unfold elems in Jx. apply in_flat_map in Jx as ((i, g) & Jg & Jx). cbn [snd] in Jx. apply in_split in Jg as (G1 & G2 & ->).
  assert (Ee : l = elems G1 ++ g ++ elems G2) by (rewrite <- El, EG, elems_app, elems_cons; reflexivity).
  rewrite <- (op_vals Op) in Fc, Fa. assert (Cg : class key eq hash uniq (value_of s) (bc t0) (i, g)) by (rewrite Forall_forall in Fc; apply Fc; rewrite in_app_iff; cbn; auto).
  destruct Cg as (Ng & _ & Cg & _). cbn [snd] in Ng, Cg.
  assert (Dist : forall y, In y (elems G1) \/ In y (elems G2) -> eq (key (value_of s x)) (key (value_of s y)) = false).
  { apply fop_app in Fa as (_ & Fa & Fb). inversion Fa as [|? ? F1 _]; subst. rewrite Forall_forall in F1. intros y [Y|Y].
    - unfold elems in Y. apply in_flat_map in Y as (c & C & Y). specialize (Fb c (i, g) C (or_introl Logic.eq_refl) y x Y Jx). cbn beta in Fb.
      apply not_true_iff_false. intros T. apply (q_sym Hq) in T. congruence.
    - unfold elems in Y. apply in_flat_map in Y as (c & C & Y). exact (F1 c C x y Jx Y). }
  assert (Mg : matching s (eq (key (value_of s x))) l = g).
  { unfold HashProps.matching. rewrite Ee, !filter_app, (filter_no _ (elems G1)), (filter_yes _ g), (filter_no _ (elems G2)), app_nil_r; auto. }
  rewrite Mg. destruct g as [|y g]; [easy|].
  assert (Ey : l1 = elems G1 /\ x = y /\ l2 = g ++ elems G2).
  { rewrite E in Ee. apply app_eq_app in Ee as (m & [(E1 & E2)|(E1 & E2)]).
    - destruct m as [|z m]; cbn in E2.
      + rewrite app_nil_r in E1. injection E2 as -> <-. auto.
      + exfalso. injection E2 as <- E2. specialize (Nf y ltac:(rewrite E1, in_app_iff; cbn; auto)). rewrite (Cg x y Jx) in Nf by now left. discriminate.
    - destruct m as [|z m]; cbn in E2.
      + rewrite app_nil_r in E1. injection E2 as -> ->. auto.
      + exfalso. injection E2 as <- E2. assert (X : In x (elems G1)) by (rewrite E1, in_app_iff; cbn; auto).
        specialize (Dist x (or_introl X)). rewrite (q_refl Hq) in Dist. discriminate. }
  destruct Ey as (El1 & <- & El2). assert (Wn : nnode hd (flat G2) = List.hd hd (elems G2)).
  { assert (W := op_wf Op). rewrite EI, flat_app, flat_cons in W. apply wfi_app in W as (_ & W). apply wfi_app in W as (_ & W). rewrite (nnode_hd hd W). now rewrite elems_flat. }
  change x with (first_of (x :: g)) at 1. eapply Ro_conseq; [exact (proj2 (@range_ends _ _ _ _ _ _ _ _ _ _ _ _ _ _ OKs Hq _ _ _ [] (op_wf Op) (op_hs Op) (op_uq Op) (op_lv Op) (size_le Op) _ (op_cl Op) G1 i (x :: g) G2 Logic.eq_refl))|].
  cbn beta. intros r ->. exists (elems G2). rewrite El2. auto.
Qed.
Lemma e_find k : Ro (HashIdx.find throws key uniq hd sup (hash k) (eq k)) (fun r => r = List.hd hd (matching s (eq k) l)).
Proof.
  destruct op as (t & sp & I & G & Op & -> & ->). rewrite <- (hits_eq _ Op).
  refine (@find_ok _ _ _ _ _ _ _ _ _ _ _ _ _ _ OKs _ _ _ _ [] (op_wf Op) (op_hs Op) (op_uq Op) (op_lv Op) (size_le Op) _ (op_cl Op) _ _ (op_pos Op) _);
    [|apply picks_eq]; exact (Focus.this_code_ok cs1 cs2 this St_).
Qed.
Lemma e_range k : Ro (equal_range throws key eq uniq hd sup (hash k) (eq k)) (fun r => exists l1 l2, l = l1 ++ matching s (eq k) l ++ l2 /\
  r = match matching s (eq k) l with [] => (hd, hd) | y :: _ => (y, List.hd hd l2) end).
Proof.
  destruct op as (t & sp & I & G & Op & -> & ->). rewrite <- (hits_eq _ Op), <- (op_el Op).
  refine (@equal_range_ok _ _ _ _ _ _ _ _ _ _ _ _ _ _ OKs _ _ _ _ [] (op_wf Op) (op_hs Op) (op_uq Op) (op_lv Op) (size_le Op) _ (op_cl Op) _ _ (op_pos Op) _);
    [|apply picks_eq]; exact (Focus.this_code_ok cs1 cs2 this St_).
Qed.
End Side.

(** ** Two containers *)
From Verif Require Import HashEq.
Section Two.
Variable V K : Type.
Variable dv : V.
(** what both indices have in common *)
Variable key : V -> K.
Variable eq : K -> K -> bool.
Variable uniq : bool.
Variable veq : V -> V -> bool.
(** the first container, the index being between [csA1] and [csA2] *)
Variable throwsA : nat -> bool.
Variable pickA : list node -> node.
Variable hdA : node.
Variables csA1 csA2 : list (code V).
Variable hashA : K -> nat.
Variable jA : bptr * bptr.
Variable nA : nat.
Variable plA : policy.
(** the second container *)
Variable throwsB : nat -> bool.
Variable pickB : list node -> node.
Variable hdB : node.
Variables csB1 csB2 : list (code V).
Variable hashB : K -> nat.
Variable jB : bptr * bptr.
Variable nB : nat.
Variable plB : policy.
Notation thisA := (Hashed key eq hashA uniq jA nA plA).
Notation thisB := (Hashed key eq hashB uniq jB nB plB).
Notation allA := (all csA1 csA2 thisA).
Notation allB := (all csB1 csB2 thisB).
Notation supA := (stack throwsA pickA hdA (mem_world V) csA2).
Notation supB := (stack throwsB pickB hdB (mem_world V) csB2).
Notation this_ofA := (@down V throwsA pickA hdA (mem_world V) (thisA :: csA2) csA1).
Notation this_ofB := (@down V throwsB pickB hdB (mem_world V) (thisB :: csB2) csB1).
Notation valueA := (@value_of V throwsA pickA dv hdA allA).
Notation valueB := (@value_of V throwsB pickB dv hdB allB).
Notation callsA := (@calls V throwsA pickA hdA allA).
Notation callsB := (@calls V throwsB pickB hdB allB).
Notation holdsA := (@holds V throwsA pickA hdA csA1 csA2 thisA).
Notation holdsB := (@holds V throwsB pickB hdB csB1 csB2 thisB).
Notation matchingA s := (@matching V throwsA pickA dv hdA csA1 csA2 K key eq hashA uniq jA nA plA s).
Notation matchingB s := (@matching V throwsB pickB dv hdB csB1 csB2 K key eq hashB uniq jB nB plB s).

(** operator== of hashed indices (hashed_index.hpp:1189-1232, dispatched at compile time).  The two indices belong to
    different containers; calls to == count as user calls of the first one. *)
Definition h_equals : M ((hst * St supA) * (hst * St supB)) bool :=
  if uniq then
    u_equals key veq hdA hdB (fun b : bool => HashIdx.ucall throwsA supA b) (supM (size supA)) (h_begin hdA supA) (h_next uniq supA)
      (HashIdx.oval supA) (supM (size supB)) (HashIdx.oval supB) (fun k => HashIdx.find throwsB key uniq hdB supB (hashB k) (eq k))
  else
    n_equals key veq hdA (fun b : bool => HashIdx.ucall throwsA supA b) (supM (size supA)) (h_begin hdA supA) (h_next uniq supA)
      (HashIdx.oval supA) (end_of_range throwsA key eq uniq supA) (supM (size supB)) (h_next uniq supB) (HashIdx.oval supB)
      (fun k => equal_range throwsB key eq uniq hdB supB (hashB k) (eq k)).

Hypothesis StA : setting pickA hdA allA.
Hypothesis StB : setting pickB hdB allB.
Hypothesis veq_refl : forall a, veq a a = true.
Hypothesis veq_sym : forall a b, veq a b = veq b a.
Hypothesis veq_trans : forall a b c, veq a b = true -> veq b c = true -> veq a c = true.

(** x==y if and only if there are as many elements in both and, for each key, the elements with that key are, up to ==
    of elements, permutations of each other.  Neither index changes. *)
Theorem C27_equals sA lkA nhA lA sB lkB nhB lB :
  @reachable V throwsA pickA hdA allA sA lkA nhA -> holdsA sA lA ->
  @reachable V throwsB pickB hdB allB sB lkB nhB -> holdsB sB lB ->
  let same n m (st : (hst * St supA) * (hst * St supB)) :=
    st = ((fst (this_ofA sA), adv supA n (snd (this_ofA sA))), (fst (this_ofB sB), adv supB m (snd (this_ofB sB)))) in
  match h_equals (this_ofA sA, this_ofB sB) with
  | Ret b st =>
      (b = true <-> length lA = length lB /\
        forall k, matched veq (map (valueA sA) (matchingA sA (eq k) lA)) (map (valueB sB) (matchingB sB (eq k) lB))) /\
      exists n m, quiet throwsA (callsA sA) n /\ quiet throwsB (callsB sB) m /\ same n m st
  | Exn st => exists n m, (blown throwsA (callsA sA) n /\ quiet throwsB (callsB sB) m \/ quiet throwsA (callsA sA) n /\ blown throwsB (callsB sB) m) /\ same n m st
  | UB => False
  end.
Proof.
  intros RA HA RB HB same.
  set (QA n := (fst (this_ofA sA), adv supA n (snd (this_ofA sA)))). set (QB n := (fst (this_ofB sB), adv supB n (snd (this_ofB sB)))).
  assert (EA : this_ofA sA = QA (callsA sA)). { unfold QA. assert (Q := @adv_self V throwsA pickA dv hdA csA1 csA2 _ _ _ _ _ _ _ _ StA sA). rewrite Q. apply surjective_pairing. }
  assert (EB : this_ofB sB = QB (callsB sB)). { unfold QB. assert (Q := @adv_self V throwsB pickB dv hdB csB1 csB2 _ _ _ _ _ _ _ _ StB sB). rewrite Q. apply surjective_pairing. }
  assert (W : HashEq.Ro throwsA throwsB QA QB h_equals (fun r => r = true <-> equal_indices key veq lA lB (valueA sA) (valueB sB) eq)).
  { assert (HqA := Focus.this_code_ok csA1 csA2 thisA StA : heq_ok eq hashA).
    assert (Sy : forall k k', eq k k' = eq k' k).
    { intros k k'. destruct (eq k k') eqn:E; symmetry; [now apply (q_sym HqA)|]. apply not_true_iff_false. intros T. apply (q_sym HqA) in T. congruence. }
    assert (NA := @nodup_this V throwsA pickA dv hdA csA1 csA2 thisA StA sA lkA nhA lA RA HA).
    assert (NB := @nodup_this V throwsB pickB dv hdB csB1 csB2 thisB StB sB lkB nhB lB RB HB).
    unfold h_equals. destruct (bool_dec uniq true) as [U|U].
    - match goal with |- HashEq.Ro _ _ _ _ (if uniq then ?m else _) ?P => enough (HashEq.Ro throwsA throwsB QA QB m P) by (rewrite U at 1; assumption) end.
      apply (@u_equals_ok _ _ _ _ _ _ _ _ _ _ _ _ _ (end_of_range throwsA key eq uniq supA) _ _ _ (fun k => equal_range throwsB key eq uniq hdB supB (hashB k) (eq k))); auto.
      + apply (q_refl HqA).
      + apply (q_trans HqA).
      + intros b. exact (@e_call V throwsA pickA dv hdA csA1 csA2 _ _ _ _ _ _ _ _ StA sA b).
      + exact (@e_size V throwsA pickA dv hdA csA1 csA2 _ _ _ _ _ _ _ _ StA sA lkA nhA lA RA HA).
      + exact (@e_begin V throwsA pickA dv hdA csA1 csA2 _ _ _ _ _ _ _ _ StA sA lkA nhA lA RA HA).
      + exact (@e_next V throwsA pickA dv hdA csA1 csA2 _ _ _ _ _ _ _ _ StA sA lkA nhA lA RA HA).
      + exact (@e_val V throwsA pickA dv hdA csA1 csA2 _ _ _ _ _ _ _ _ StA sA lkA nhA lA RA HA).
      + exact (@e_size V throwsB pickB dv hdB csB1 csB2 _ _ _ _ _ _ _ _ StB sB lkB nhB lB RB HB).
      + exact (@e_val V throwsB pickB dv hdB csB1 csB2 _ _ _ _ _ _ _ _ StB sB lkB nhB lB RB HB).
      + intros k. exact (proj2 (@C24_adjacent V throwsA pickA dv hdA csA1 csA2 _ _ _ _ _ _ _ _ StA sA lkA nhA lA k RA HA) U).
      + intros k. exact (proj2 (@C24_adjacent V throwsB pickB dv hdB csB1 csB2 _ _ _ _ _ _ _ _ StB sB lkB nhB lB k RB HB) U).
      + exact (@e_find V throwsB pickB dv hdB csB1 csB2 _ _ _ _ _ _ _ _ StB sB lkB nhB lB RB HB).
    - apply not_true_is_false in U.
      match goal with |- HashEq.Ro _ _ _ _ (if uniq then _ else ?m) ?P => enough (HashEq.Ro throwsA throwsB QA QB m P) by (rewrite U at 1; assumption) end.
      apply (@n_equals_ok _ _ _ _ _ _ _ hdB _ _ _ _ _ _ _ _ _ (fun k => HashIdx.find throwsB key uniq hdB supB (hashB k) (eq k))); auto.
      + apply (q_refl HqA).
      + apply (q_trans HqA).
      + intros b. exact (@e_call V throwsA pickA dv hdA csA1 csA2 _ _ _ _ _ _ _ _ StA sA b).
      + exact (@e_size V throwsA pickA dv hdA csA1 csA2 _ _ _ _ _ _ _ _ StA sA lkA nhA lA RA HA).
      + exact (@e_begin V throwsA pickA dv hdA csA1 csA2 _ _ _ _ _ _ _ _ StA sA lkA nhA lA RA HA).
      + exact (@e_next V throwsA pickA dv hdA csA1 csA2 _ _ _ _ _ _ _ _ StA sA lkA nhA lA RA HA).
      + exact (@e_val V throwsA pickA dv hdA csA1 csA2 _ _ _ _ _ _ _ _ StA sA lkA nhA lA RA HA).
      + exact (@e_size V throwsB pickB dv hdB csB1 csB2 _ _ _ _ _ _ _ _ StB sB lkB nhB lB RB HB).
      + exact (@e_next V throwsB pickB dv hdB csB1 csB2 _ _ _ _ _ _ _ _ StB sB lkB nhB lB RB HB).
      + exact (@e_val V throwsB pickB dv hdB csB1 csB2 _ _ _ _ _ _ _ _ StB sB lkB nhB lB RB HB).
      + exact (@e_endr V throwsA pickA dv hdA csA1 csA2 _ _ _ _ _ _ _ _ StA sA lkA nhA lA RA HA).
      + exact (@e_range V throwsB pickB dv hdB csB1 csB2 _ _ _ _ _ _ _ _ StB sB lkB nhB lB RB HB). }
  red in W. specialize (W (callsA sA) (callsB sB)). rewrite EA, EB. unfold wp in W. exact W.
Qed.
End Two.

(** ** When == of elements implies equivalence of keys *)
Section Cnt.
Variable V K : Type.
Variable key : V -> K.
Variable eq : K -> K -> bool.
Variable veq : V -> V -> bool.
Hypothesis eq_refl' : forall k, eq k k = true.
Hypothesis eq_sym' : forall k k', eq k k' = true -> eq k' k = true.
Hypothesis eq_trans' : forall k k' k'', eq k k' = true -> eq k' k'' = true -> eq k k'' = true.
Hypothesis veq_refl : forall a, veq a a = true.
Hypothesis veq_sym : forall a b, veq a b = veq b a.
Hypothesis veq_trans : forall a b c, veq a b = true -> veq b c = true -> veq a c = true.
Hypothesis veq_key : forall a b, veq a b = true -> eq (key a) (key b) = true.
Lemma cnt_class v k l : eq k (key v) = true -> cnt veq v (filter (fun a => eq k (key a)) l) = cnt veq v l.
Proof.
  intros E. unfold cnt. rewrite filter_filter. f_equal. apply filter_ext. intros a. destruct (veq a v) eqn:F; cbn; [|now rewrite andb_false_r]. rewrite andb_true_r.
  apply (eq_trans' E). apply veq_key. now rewrite veq_sym.
Qed.
Lemma classwise xs ys : (length xs = length ys /\ forall k, matched veq (filter (fun a => eq k (key a)) xs) (filter (fun a => eq k (key a)) ys)) <->
  matched veq xs ys.
Proof.
  split.
  - intros (Ln & H). apply cnt_matched; auto. intros x _. rewrite <- (@cnt_class x (key x) xs), <- (@cnt_class x (key x) ys) by apply eq_refl'.
    apply matched_cnt; auto.
  - intros H. split; [exact (matched_len H)|]. intros k. apply cnt_matched; auto.
    + destruct H as (zs & P & F). assert (Lp : length (filter (fun a => eq k (key a)) ys) = length (filter (fun a => eq k (key a)) zs)).
      { clear F. induction P; cbn; auto; repeat (destruct (eq k _); cbn; auto); congruence. }
      rewrite Lp. clear Lp P. induction F as [|a b xs zs E _ IH]; cbn; auto.
      apply veq_key in E. assert (Q : eq k (key a) = eq k (key b)).
      { destruct (eq k (key a)) eqn:Ea; symmetry; [now apply (eq_trans' Ea)|]. apply not_true_iff_false. intros T. apply eq_sym' in E. rewrite (eq_trans' T E) in Ea. discriminate. }
      rewrite Q. destruct (eq k (key b)); cbn; auto.
    + intros x J. apply filter_In in J as (_ & J). rewrite !cnt_class by exact J. now apply matched_cnt.
Qed.
Lemma matched_perm xs xs' ys ys' : Permutation xs xs' -> Permutation ys ys' -> matched veq xs ys -> matched veq xs' ys'.
Proof.
  intros P Q M. apply cnt_matched; auto.
  - rewrite <- (Permutation_length P), <- (Permutation_length Q). exact (matched_len M).
  - intros x _. rewrite <- (@cnt_perm _ veq x _ _ P), <- (@cnt_perm _ veq x _ _ Q). now apply matched_cnt.
Qed.
End Cnt.

Section Two'.
Variable V K : Type.
Variable dv : V.
Variable key : V -> K.
Variable eq : K -> K -> bool.
Variable uniq : bool.
Variable veq : V -> V -> bool.
Variable throwsA : nat -> bool.
Variable pickA : list node -> node.
Variable hdA : node.
Variables csA1 csA2 : list (code V).
Variable hashA : K -> nat.
Variable jA : bptr * bptr.
Variable nA : nat.
Variable plA : policy.
Variable throwsB : nat -> bool.
Variable pickB : list node -> node.
Variable hdB : node.
Variables csB1 csB2 : list (code V).
Variable hashB : K -> nat.
Variable jB : bptr * bptr.
Variable nB : nat.
Variable plB : policy.
Notation thisA := (Hashed key eq hashA uniq jA nA plA).
Notation thisB := (Hashed key eq hashB uniq jB nB plB).
Notation allA := (all csA1 csA2 thisA).
Notation allB := (all csB1 csB2 thisB).
Notation valueA := (@value_of V throwsA pickA dv hdA allA).
Notation valueB := (@value_of V throwsB pickB dv hdB allB).
(** If elements which are == have equivalent keys, x==y if and only if the elements of x are, up to ==, a permutation
    of those of y. *)
Theorem C27_permutation sA lkA nhA sB lkB nhB :
  setting pickA hdA allA -> setting pickB hdB allB ->
  (forall a, veq a a = true) -> (forall a b, veq a b = veq b a) -> (forall a b c, veq a b = true -> veq b c = true -> veq a c = true) ->
  (forall a b, veq a b = true -> eq (key a) (key b) = true) ->
  @reachable V throwsA pickA hdA allA sA lkA nhA -> @reachable V throwsB pickB hdB allB sB lkB nhB ->
  match h_equals key eq uniq veq throwsA pickA hdA csA2 throwsB pickB hdB csB2 hashB
    (@down V throwsA pickA hdA (mem_world V) (thisA :: csA2) csA1 sA, @down V throwsB pickB hdB (mem_world V) (thisB :: csB2) csB1 sB) with
  | Ret b _ => b = true <-> matched veq (map (valueA sA) lkA) (map (valueB sB) lkB)
  | Exn _ => True
  | UB => False
  end.
Proof.
  intros StA StB v1 v2 v3 vk RA RB.
  destruct (@holds_some V throwsA pickA dv hdA csA1 csA2 thisA StA sA lkA nhA RA) as (lsA & lA & SqA & NtA).
  destruct (@holds_some V throwsB pickB dv hdB csB1 csB2 thisB StB sB lkB nhB RB) as (lsB & lB & SqB & NtB).
  assert (HA : @holds V throwsA pickA hdA csA1 csA2 thisA sA lA) by (exists lsA; auto).
  assert (HB : @holds V throwsB pickB hdB csB1 csB2 thisB sB lB) by (exists lsB; auto).
  assert (PA := @perm_this V throwsA pickA dv hdA csA1 csA2 thisA StA sA lkA nhA lA RA HA).
  assert (PB := @perm_this V throwsB pickB dv hdB csB1 csB2 thisB StB sB lkB nhB lB RB HB).
  assert (Hq := Focus.this_code_ok csA1 csA2 thisA StA : heq_ok eq hashA).
  assert (W := @C27_equals V K dv key eq uniq veq throwsA pickA hdA csA1 csA2 hashA jA nA plA throwsB pickB hdB csB1 csB2 hashB jB nB plB StA StB v1 v2 v3 sA lkA nhA lA sB lkB nhB lB RA HA RB HB). cbv zeta in W.
  destruct (h_equals _ _ _ _ _ _ _ _ _ _ _ _ _ _) as [b st|st|]; auto. destruct W as (W & _). rewrite W. clear W.
  assert (Mf : forall (v : node -> V) p l, map v (filter (fun y => p (key (v y))) l) = filter (fun a => p (key a)) (map v l)).
  { intros v p l. induction l as [|x l IH]; cbn; auto. destruct (p (key (v x))); cbn; now rewrite IH. }
  etransitivity; [|etransitivity; [exact (@classwise V K key eq veq (q_refl Hq) (q_sym Hq) (q_trans Hq) v1 v2 v3 vk (map (valueA sA) lA) (map (valueB sB) lB))|]].
  - rewrite !map_length. apply and_iff_compat_l. split; intros M k; specialize (M k); unfold matching in *; rewrite !Mf in *; exact M.
  - split; apply matched_perm; auto using Permutation_map, Permutation_sym.
Qed.
End Two'.

(** ** Two containers with the same elements in another arrangement *)
(** values 9, 5, 8, 6 and 7, another hash function and other indices; values are compared by their halves *)
Definition half_b : code nat := Hashed (fun v : nat => v / 2) Nat.eqb (fun k => 7 * k) false jh0 0 pol1.
Definition two_b : list (code nat) := [by_id false; half_b].
Lemma two_b_ok : setting next_node 1 two_b.
Proof.
  split; [apply next_node_ok| |easy|easy].
  repeat (constructor; [first [exact nat_swo|apply nat_heq|exact Logic.I]|]). constructor.
Qed.
Definition never (n : nat) : bool := false.
Definition b_play (vs : list nat) := play never next_node 1 two_b (map (fun v => Insert _ v None) vs) (start never next_node 1 two_b 0) [] [].
Definition b_state vs : St (box never next_node 1 two_b) := fst (b_play vs).
Notation three_vs vs := (value_got (h_equals halves Nat.eqb false Nat.eqb at60 next_node 1 up2 never next_node 1 [] (fun k => 7 * k)
  (half_at, @down nat never next_node 1 (mem_world nat) [half_b] [by_id false] (b_state vs)))).
Lemma b_reach : reachable never next_node 1 two_b (b_state [9; 5; 8; 6; 7]) [6; 5; 4; 3; 2] [].
Proof.
  assert (P : playable never next_node 1 two_b (map (fun v => Insert _ v None) [9; 5; 8; 6; 7]) (start never next_node 1 two_b 0) [] []).
  { vm_compute. repeat split; auto. }
  apply play_reach in P; [|apply start_reach]. vm_compute in P |- *. exact P.
Qed.
Example equals_hyp : setting next_node 1 (Focus.all [] up2 hash_half) /\ setting next_node 1 (Focus.all [by_id false] [] half_b) /\
  reachable at60 next_node 1 (Focus.all [] up2 hash_half) hash_state [6; 5; 4; 3; 2] [] /\
  reachable never next_node 1 (Focus.all [by_id false] [] half_b) (b_state [9; 5; 8; 6; 7]) [6; 5; 4; 3; 2] [] /\
  three_vs [9; 5; 8; 6; 7] = Some true /\ three_vs [9; 5; 8; 6; 6] = Some false /\ three_vs [9; 5; 8; 6] = Some false /\ three_vs [9; 5; 8; 6; 7; 1] = Some false /\
  three_vs [9; 5; 8; 6; 1] = Some false.
Proof. splits; [exact three_ok|exact two_b_ok|exact hash_reach|exact b_reach|..]; vm_compute; reflexivity. Qed.
Print Assumptions C27_equals.
Print Assumptions C27_permutation.
