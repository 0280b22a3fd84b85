(** C53: insertion of the values of a range, construction from a range.
    Sources: /repo/include/boost/multi_index_container.hpp, multi_index/detail/ord_index_impl.hpp,
    multi_index/hashed_index.hpp *)
From Verif Require Import Prelude Layer LayerBase Stack View Container ContOk Iops Up Down History ContSpec Client ContEx ContProps Focus Keyed.
Set Implicit Arguments.

(** ** Specification of repeated insertion: the values [ws] of [vs] are accepted, one after the other,
    when elements with the values [old] are there already; the others clash with one which is there *)
Inductive accepted {V} (cs : list (code V)) : list V -> list V -> list V -> Prop :=
| acc_nil old : accepted cs old [] []
| acc_take old v vs ws : (forall w, In w old -> ~ conflict cs v w) -> accepted cs (v :: old) vs ws -> accepted cs old (v :: vs) (v :: ws)
| acc_skip old v w vs ws : In w old -> conflict cs v w -> accepted cs old vs ws -> accepted cs old (v :: vs) ws.
(** sequenced and random access indices get new elements [xs] at the end *)
Definition at_end {V} (xs : list node) (c : code V) (l l' : list node) : Prop :=
  match c with
  | Sequenced _ _ _ | RandomAccess _ _ => l' = l ++ xs
  | _ => True
  end.
(** values without clashes are all accepted *)
Lemma accepted_all V (cs : list (code V)) vs : forall old ws, accepted cs old vs ws ->
  (forall v w, In v vs -> In w old -> ~ conflict cs v w) ->
  (forall vs1 v vs2 w, vs = vs1 ++ v :: vs2 -> In w vs1 -> ~ conflict cs v w) -> ws = vs.
Proof.
  induction vs as [|v vs IH]; intros old ws A H1 H2; inversion A as [|? ? ? ? N A'|? ? w ? ? Iw C A']; subst; auto.
  - f_equal. apply (IH (v :: old)); auto.
    + intros u w Iu [<-|Iw]; [|apply H1; [now right|auto]]. apply in_split in Iu as (a & b & ->). apply (H2 (v :: a) u b); [reflexivity|now left].
    + intros a u b w -> Iw. apply (H2 (v :: a) u b); [reflexivity|now right].
  - exfalso. apply (H1 v w); auto. now left.
Qed.

Section Props.
Variable V : Type.
Variable throws : nat -> bool.
Variable pick : list node -> node.
Variable dv : V.
Variable hd : node.
Variable cs : list (code V).
Notation box := (box throws pick hd cs).
Notation sequences := (@sequences V throws pick hd cs).
Notation count := (@count V throws pick hd cs).
Notation value_of := (@value_of V throws pick dv hd cs).
Notation memory := (@memory V throws pick hd cs).
Notation calls := (@calls V throws pick hd cs).
Notation reachable := (@reachable V throws pick hd cs).
Implicit Types (s : St box) (lk nh l : list node) (ls : list (list node)) (vs : list V).

(** insert(first,last) of ordered indices, ord_index_impl.hpp:340-345, and of hashed indices,
    hashed_index.hpp:316-321; [vs] are the values of the range *)
Fixpoint insert_values vs : M (St box) unit :=
  match vs with
  | [] => ret tt
  | v :: vs => c_insert box v None ;;; insert_values vs
  end.

(** the elements [xs] are new *)
Definition grown s s' lk nh ls (vs : list V) (xs : list node) : Prop :=
  reachable s' (rev xs ++ lk) nh /\ accepted cs (map (value_of s) lk) vs (map (value_of s') xs) /\
  memory s' = map (fun x => (x, Some (value_of s' x))) (rev xs) ++ memory s /\
  (forall y, In y lk -> value_of s' y = value_of s y) /\
  exists ls', sequences s' = Some ls' /\ each (at_end xs) cs ls ls'.

(** the last call to user code, or allocation, threw *)
Definition failed s : Prop := exists i, calls s = S i /\ throws i = true.

Hypothesis St_ : setting pick hd cs.

Lemma each_trans (P Q R : code V -> list node -> list node -> Prop) ds ls ls1 ls2 :
  (forall c l l1 l2, P c l l1 -> Q c l1 l2 -> R c l l2) -> each P ds ls ls1 -> each Q ds ls1 ls2 -> each R ds ls ls2.
Proof.
  intros H A. revert ls2. induction A as [|c ds l ls l1 ls1 Pc A IH]; intros ls2 B; inversion B; subst; constructor; eauto.
Qed.
Lemma each_refl (R : code V -> list node -> list node -> Prop) ds ls : length ls = length ds -> (forall c l, R c l l) -> each R ds ls ls.
Proof. intros L H. revert ls L. induction ds as [|c ds IH]; intros [|l ls] L; try discriminate L; constructor; auto. Qed.
Lemma each_impl (P R : code V -> list node -> list node -> Prop) ds ls ls' : (forall c l l', P c l l' -> R c l l') -> each P ds ls ls' -> each R ds ls ls'.
Proof. intros H A. induction A; constructor; auto. Qed.
Lemma each_length (P : code V -> list node -> list node -> Prop) ds ls ls' : each P ds ls ls' -> length ls = length ds.
Proof. intros A. induction A; cbn; congruence. Qed.
Lemma seqs_length s lk nh ls : reachable s lk nh -> sequences s = Some ls -> length ls = length cs.
Proof.
  intros R Sq. destruct (open dv St_ R Sq) as (a & G & -> & Lv). apply spec_len.
Qed.
Lemma grown_nil s s' lk nh ls vs1 : reachable s lk nh -> reachable s' lk nh -> memory s' = memory s -> accepted cs (map (value_of s) lk) vs1 [] ->
  sequences s = Some ls -> (exists ls', sequences s' = Some ls' /\ each (fun c => untouched c (value_of s)) cs ls ls') -> grown s s' lk nh ls vs1 [].
Proof.
  intros R R' M A Sq (ls' & Sq' & Ea). unfold grown. cbn [rev app map]. splits; auto.
  - intros y _. unfold Client.value_of, val. unfold Client.memory in M. now rewrite M.
  - exists ls'. split; auto. eapply each_impl; [|exact Ea]. intros [] l l' H; cbn in *; auto; now rewrite app_nil_r.
Qed.
(** one value, with or without a hint *)
Lemma insert_one s lk nh ls v hint : reachable s lk nh -> sequences s = Some ls -> hint_ok hd hint lk ->
  match c_insert box v hint s with
  | Ret (x, true) s' => grown s s' lk nh ls [v] [x]
  | Ret (x, false) s' => grown s s' lk nh ls [v] [] /\ In x lk
  | Exn s' => grown s s' lk nh ls [] [] /\ failed s'
  | UB => False
  end.
Proof.
  intros R Sq Hk. assert (W := C01_C02_insert dv St_ v hint R Sq Hk).
  assert (RR := @reach_ret V throws pick hd box _ (@run_index V throws pick hd cs) (@can_index V throws pick hd cs) (fun s => exists n, s = start throws pick hd cs n) s lk nh (Insert _ v hint)).
  assert (RE := @reach_exn V throws pick hd box _ (@run_index V throws pick hd cs) (@can_index V throws pick hd cs) (fun s => exists n, s = start throws pick hd cs n) s lk nh (Insert _ v hint)).
  destruct (c_insert box v hint s) as [(x, [|]) s'|s'|] eqn:E; [| | |exact W].
  - destruct W as (Nw & M & (Vx & Vl & _ & Nc & ls' & Sq' & Ea)). unfold grown. cbn [rev app map]. splits; auto.
    + refine (RR (Pair x true) s' R Hk _). cbn [exec]. unfold bind. now rewrite E.
    + rewrite Vx. constructor; [|constructor]. intros w Iw. apply in_map_iff in Iw as (y & <- & Iy). auto.
    + rewrite Vx. exact M.
    + exists ls'. split; auto. eapply each_impl; [|exact Ea]. intros [] l l' H; cbn in *; auto.
  - destruct W as (Ix & Cf & (M & _ & Ea)). split; auto. apply grown_nil; auto.
    + refine (RR (Pair x false) s' R Hk _). cbn [exec]. unfold bind. now rewrite E.
    + apply acc_skip with (w := value_of s x); auto; [now apply in_map|constructor].
  - destruct W as ((i & B & _ & T) & (M & _ & Ea)). split; [|exists i; auto]. apply grown_nil; auto; [|constructor].
    refine (RE s' R Hk _). cbn [exec]. unfold bind. now rewrite E.
Qed.
Lemma accepted_app old vs1 ws1 vs2 ws2 : accepted cs old vs1 ws1 -> accepted cs (rev ws1 ++ old) vs2 ws2 -> accepted cs old (vs1 ++ vs2) (ws1 ++ ws2).
Proof.
  intros A B. induction A as [old|old v vs ws N A IH|old v w vs ws Iw C A IH]; cbn [app]; auto.
  - constructor; auto. apply IH. cbn in B. now rewrite <- app_assoc in B.
  - eapply acc_skip; eauto.
Qed.
Lemma grown_trans s s1 s' lk nh ls ls1 vs1 vs2 xs1 xs2 : grown s s1 lk nh ls vs1 xs1 -> sequences s1 = Some ls1 ->
  grown s1 s' (rev xs1 ++ lk) nh ls1 vs2 xs2 -> grown s s' lk nh ls (vs1 ++ vs2) (xs1 ++ xs2).
Proof.
  intros (R1 & A1 & M1 & V1 & ls1' & Sq1 & Ea1) Sq1' (R2 & A2 & M2 & V2 & ls2 & Sq2 & Ea2).
  assert (ls1' = ls1) by congruence. subst ls1'. unfold grown. rewrite rev_app_distr, <- app_assoc.
  assert (E1 : forall x, In x xs1 -> value_of s' x = value_of s1 x).
  { intros x I. apply V2. apply in_or_app. left. now apply -> in_rev. }
  splits; auto.
  - rewrite map_app, (map_ext_in _ (value_of s1) xs1) by exact E1. eapply accepted_app; [exact A1|].
    rewrite map_app, map_rev, (map_ext_in (value_of s1) (value_of s) lk) in A2 by exact V1. exact A2.
  - rewrite M2, M1, map_app, <- app_assoc. f_equal. f_equal. apply map_ext_in. intros x I. apply in_rev in I. now rewrite E1.
  - intros y Iy. rewrite V2 by (apply in_or_app; auto). auto.
  - exists ls2. split; auto. refine (each_trans _ _ Ea1 Ea2). intros [] l l1 l2; cbn; auto; intros -> ->; now rewrite app_assoc.
Qed.
(** after an exception the values before the one which could not be inserted are there *)
Theorem C53_insert_range vs : forall s lk nh ls, reachable s lk nh -> sequences s = Some ls ->
  match insert_values vs s with
  | Ret _ s' => exists xs, grown s s' lk nh ls vs xs
  | Exn s' => failed s' /\ exists vs1 v vs2 xs, vs = vs1 ++ v :: vs2 /\ grown s s' lk nh ls vs1 xs
  | UB => False
  end.
Proof.
  induction vs as [|v vs IH]; intros s lk nh ls R Sq; cbn [insert_values].
  - exists []. apply grown_nil; auto; [constructor|]. exists ls. split; auto. apply each_refl; [eapply seqs_length; eauto|].
    intros [] l; cbn; auto. split; auto.
  - unfold bind. assert (W := insert_one v None R Sq I). destruct (c_insert box v None s) as [(x, b) s1|s1|]; [| |exact W].
    + assert (G : exists xs, grown s s1 lk nh ls [v] xs) by (destruct b; [eauto|destruct W; eauto]). destruct G as (xs1 & G).
      assert (G' := G). destruct G' as (R1 & _ & _ & _ & ls1 & Sq1 & _). assert (X := IH s1 _ nh ls1 R1 Sq1).
      destruct (insert_values vs s1) as [u s'|s'|]; auto.
      * destruct X as (xs & X). exists (xs1 ++ xs). exact (grown_trans G Sq1 X).
      * destruct X as (Fl & vs1 & w & vs2 & xs & -> & X). split; auto. exists (v :: vs1), w, vs2, (xs1 ++ xs). split; auto. exact (grown_trans G Sq1 X).
    + destruct W. split; auto. exists [], v, vs, []. auto.
Qed.
End Props.

Section Construct.
Variable V : Type.
Variable throws : nat -> bool.
Variable pick : list node -> node.
Variable dv : V.
Variable hd : node.
(** the first index and the others *)
Variable c0 : code V.
Variable cs' : list (code V).
Notation cs := (Focus.all [] cs' c0).
Notation box := (box throws pick hd cs).
Notation sequences := (@sequences V throws pick hd cs).
Notation count := (@count V throws pick hd cs).
Notation value_of := (@value_of V throws pick dv hd cs).
Notation memory := (@memory V throws pick hd cs).
Notation calls := (@calls V throws pick hd cs).
Notation reachable := (@reachable V throws pick hd cs).
Notation holds := (@Focus.holds V throws pick hd [] cs' c0).
Notation next_of := (@Keyed.next_of V throws pick hd [] cs' c0).
Notation grown := (@grown V throws pick dv hd cs).
Notation failed := (@failed V throws pick hd cs).
Implicit Types (s : St box) (lk nh l : list node) (ls : list (list node)) (vs : list V).
(** range constructor *)
Definition construct vs : M (St box) unit := c_construct_range hd box next_of vs.
Hypothesis St_ : setting pick hd cs.

Lemma next_hint s lk nh x : reachable s lk nh -> In x lk -> exists h, next_of x s = Ret h s /\ hint_ok hd (Some h) lk.
Proof.
  intros R Ix. destruct (holds_some dv [] cs' c0 St_ R) as (ls & l & Sq & Nt). assert (H : holds s l) by (exists ls; auto).
  assert (P := perm_this dv St_ R H). assert (Il : In x l) by (eapply Permutation_in; [symmetry; exact P|auto]).
  apply in_split in Il as (l1 & l2 & ->). exists (List.hd hd l2). split; [exact (next_ok dv St_ l1 x l2 R H)|]. cbn.
  destruct l2 as [|y l2]; [now left|right]. cbn. eapply Permutation_in; [exact P|]. apply in_or_app. right. right. now left.
Qed.
Lemma insert_range_ok vs : forall s lk nh ls h, reachable s lk nh -> sequences s = Some ls -> hint_ok hd (Some h) lk ->
  match c_insert_range box next_of vs h s with
  | Ret _ s' => exists xs, grown s s' lk nh ls vs xs
  | Exn s' => failed s' /\ exists vs1 v vs2 xs, vs = vs1 ++ v :: vs2 /\ grown s s' lk nh ls vs1 xs
  | UB => False
  end.
Proof.
  induction vs as [|v vs IH]; intros s lk nh ls h R Sq Hk; cbn [c_insert_range].
  - exists []. apply grown_nil; auto; [constructor|]. exists ls. split; auto. apply each_refl; [eapply (seqs_length dv St_); eauto|].
    intros [] l; cbn; auto. split; auto.
  - unfold bind at 1. assert (W := insert_one dv St_ v (Some h) R Sq Hk). destruct (c_insert box v (Some h) s) as [(x, b) s1|s1|]; [| |exact W].
    + assert (G : exists xs, grown s s1 lk nh ls [v] xs /\ In x (rev xs ++ lk)).
      { destruct b; [exists [x]; split; auto; now left|destruct W; exists []; auto]. }
      destruct G as (xs1 & G & Ix).
      assert (G' := G). destruct G' as (R1 & _ & _ & _ & ls1 & Sq1 & _). destruct (next_hint x R1 Ix) as (h1 & E1 & Hk1).
      cbn [fst]. unfold bind. rewrite E1. assert (X := IH s1 _ nh ls1 h1 R1 Sq1 Hk1).
      destruct (c_insert_range box next_of vs h1 s1) as [u s'|s'|]; auto.
      * destruct X as (xs & X). exists (xs1 ++ xs). exact (grown_trans G Sq1 X).
      * destruct X as (Fl & vs1 & w & vs2 & xs & -> & X). split; auto. exists (v :: vs1), w, vs2, (xs1 ++ xs). split; auto. exact (grown_trans G Sq1 X).
    + destruct W. split; auto. exists [], v, vs, []. auto.
Qed.
(** after an exception the elements are gone, as is their memory; the header is freed with the bases *)
Theorem C53_construct_range n vs :
  let s := start throws pick hd cs n in
  match construct vs s with
  | Ret _ s' => exists xs, reachable s' (rev xs) [] /\ accepted cs [] vs (map (value_of s') xs) /\
      (forall c i, nth_error cs i = Some c -> match c with Sequenced _ _ _ | RandomAccess _ _ => True | _ => False end ->
         exists ls, sequences s' = Some ls /\ nth_error ls i = Some xs)
  | Exn s' => failed s' /\ count s' = 0 /\ sequences s' = Some (map (fun _ => []) cs) /\ memory s' = [(hd, None)]
  | UB => False
  end.
Proof.
  intros s. assert (R : reachable s [] []) by (constructor; exists n; reflexivity).
  assert (Sq : sequences s = Some (map (fun _ => []) cs)).
  { destruct (C03_consistent dv St_ R) as (ls & Sn). rewrite (sn_seq Sn). f_equal.
    assert (L := seqs_length dv St_ R (sn_seq Sn)). assert (P := sn_perm Sn). revert L P. generalize cs. clear. induction ls as [|l ls IH]; intros ds L P; destruct ds; try discriminate L; auto.
    inversion P as [|? ? (_ & P1) P2]; subst. cbn. f_equal; [|apply IH; auto]. symmetry in P1. now apply Permutation_nil in P1. }
  assert (M0 : memory s = [(hd, None)]).
  { assert (E : forall ds w, bget (Client.box throws pick hd ds) (fresh throws pick hd (mem_world V) ds w) = w).
    { intros ds w. induction ds as [|c ds IH]; cbn; auto. destruct c; cbn; auto. }
    unfold Client.memory, s, start. now rewrite E. }
  unfold construct, c_construct_range, try_catch. assert (W := insert_range_ok vs R Sq (or_introl eq_refl : hint_ok hd (Some hd) [])).
  destruct (c_insert_range box next_of vs hd s) as [u s1|s1|]; [| |exact W].
  - destruct W as (xs & R1 & A & M & _ & ls1 & Sq1 & Ea). exists xs. rewrite app_nil_r in R1. splits; auto.
    intros c i Nc Pos. exists ls1. split; auto.
    assert (Ni : nth_error (map (fun _ : code V => @nil node) cs) i = Some []) by (erewrite map_nth_error; [reflexivity|exact Nc]).
    destruct (each_nth i Ea Nc Ni) as (l' & N' & H'). rewrite N'. destruct c; try easy; cbn in H'; now subst.
  - destruct W as (Fl & vs1 & v & vs2 & xs & -> & R1 & A & M & _ & ls1 & Sq1 & Ea). rewrite app_nil_r in R1.
    assert (X := C50_clear dv St_ R1 Sq1). unfold bind. destruct (c_clear box s1) as [u s'|s'|]; try easy.
    destruct X as (Cs & C & Sq' & M'). unfold throw. splits; auto; [unfold failed; now rewrite Cs|]. rewrite M', M, M0, filter_app.
    assert (E1 : forall m, incl m (rev xs) -> filter (fun p => negb (existsb (Nat.eqb (fst p)) (rev xs))) (map (fun x => (x, Some (value_of s1 x))) m) = []).
    { induction m as [|x m IH]; intros Im; cbn; auto. assert (E : existsb (Nat.eqb x) (rev xs) = true).
      { apply existsb_exists. exists x. split; [apply Im; now left|apply Nat.eqb_refl]. }
      rewrite E. cbn. apply IH. intros y Iy. apply Im. now right. }
    rewrite E1 by apply incl_refl. cbn. destruct (existsb (Nat.eqb hd) (rev xs)) eqn:E; auto. exfalso.
    apply existsb_exists in E as (y & Iy & E). apply Nat.eqb_eq in E. subst y.
    destruct (holds_some dv [] cs' c0 St_ R1) as (ls & l & Sql & Nt). assert (H : holds s1 l) by (exists ls; auto).
    assert (N := nodup_this dv St_ R1 H). apply NoDup_cons_iff in N as (N & _). apply N.
    eapply Permutation_in; [symmetry; exact (perm_this dv St_ R1 H)|auto].
Qed.
End Construct.

(** the first index is ordered *)
Section Sorted.
Variable V : Type.
Variable throws : nat -> bool.
Variable pick : list node -> node.
Variable dv : V.
Variable hd : node.
Variables (K : Type) (key : V -> K) (lt : K -> K -> bool) (uniq rk : bool) (junk : OrdModel.cell).
Variable cs' : list (code V).
Notation c0 := (Ordered key lt uniq rk junk).
Notation cs := (Focus.all [] cs' c0).
Notation box := (box throws pick hd cs).
Notation value_of := (@value_of V throws pick dv hd cs).
Notation reachable := (@reachable V throws pick hd cs).
Notation holds := (@Focus.holds V throws pick hd [] cs' c0).
Notation next_of := (@Keyed.next_of V throws pick hd [] cs' c0).
Implicit Types (s : St box) (lk nh l : list node) (vs : list V).
Hypothesis St_ : setting pick hd cs.

(** the order of the values of a range is the order of the index *)
Definition in_order (v w : V) : Prop := if uniq then lt (key v) (key w) = true else lt (key w) (key v) = false.
Lemma sorted_range vs : forall s lk nh l, reachable s lk nh -> holds s l ->
  ForallOrdPairs (fun v w => in_order v w /\ ~ conflict cs w v) vs ->
  (forall y w, In y lk -> In w vs -> in_order (value_of s y) w /\ ~ conflict cs w (value_of s y)) ->
  match c_insert_range box next_of vs hd s with
  | Ret _ s' => exists xs, holds s' (l ++ xs) /\ map (value_of s') xs = vs /\ reachable s' (rev xs ++ lk) nh /\
      forall y, In y lk -> value_of s' y = value_of s y
  | Exn _ => True
  | UB => False
  end.
Proof.
  induction vs as [|v vs IH]; intros s lk nh l R H F Ol; cbn [c_insert_range].
  - exists []. rewrite app_nil_r. cbn. auto.
  - destruct H as (ls & Sq & Nt). assert (H : holds s l) by (exists ls; auto).
    assert (Hk : hint_ok hd (Some hd) lk) by now left.
    assert (W := C01_C02_insert dv St_ v (Some hd) R Sq Hk).
    assert (RR := @reach_ret V throws pick hd box _ (@run_index V throws pick hd cs) (@can_index V throws pick hd cs) (fun s => exists n, s = start throws pick hd cs n) s lk nh (Insert _ v (Some hd))).
    unfold bind at 1. destruct (c_insert box v (Some hd) s) as [(x, [|]) s1|s1|] eqn:E; [| |exact I|exact W].
    + assert (R1 : reachable s1 (x :: lk) nh).
      { refine (RR (Pair x true) s1 R Hk _). cbn [exec]. unfold bind. now rewrite E. }
      destruct W as (Nw & M & (Vx & Vl & _ & Nc & ls1 & Sq1 & Ea)).
      destruct (each_nth 0 Ea (eq_refl : nth_error cs 0 = Some c0) Nt) as (l1 & Nt1 & P).
      assert (H1 : holds s1 l1) by (exists ls1; auto).
      assert (P0 := perm_this dv St_ R H).
      assert (l1 = l ++ [x]).
      { destruct P as (a & b & -> & -> & (_ & h1 & h2 & Eh & Ep & D)).
        assert (h2 = []).
        { destruct h2 as [|y h2]; auto. cbn in Ep. subst y. exfalso.
          assert (N := nodup_this dv St_ R H). apply NoDup_cons_iff in N as (N & _). apply N. rewrite Eh. apply in_or_app. right. now left. }
        subst h2. rewrite app_nil_r in Eh. subst h1.
        assert (A : OrdSpec.adm key lt uniq (value_of s1) (key (value_of s1 x)) (a ++ b) []).
        { split; [|constructor]. apply Forall_forall. intros y Iy. assert (Ik : In y lk) by (eapply Permutation_in; eauto).
          rewrite Vx, Vl by auto. destruct (Ol y v Ik (or_introl eq_refl)) as (O1 & _). unfold in_order in O1. unfold OrdSpec.rel. destruct uniq; auto.
          now rewrite O1. }
        assert (D1 := D (a ++ b) [] (eq_sym (app_nil_r _)) A). unfold OrdSpec.dist in D1. rewrite app_length in D1.
        assert (b = []) by (destruct b; auto; cbn in D1; lia). subst b. now rewrite app_nil_r. }
      subst l1. cbn [fst]. unfold bind. rewrite (next_ok dv St_ l x [] R1 H1). cbn [List.hd].
      assert (F' : Forall (fun w => in_order v w /\ ~ conflict cs w v) vs /\ ForallOrdPairs (fun v w => in_order v w /\ ~ conflict cs w v) vs).
      { inversion F; auto. }
      destruct F' as (F1 & F2). rewrite Forall_forall in F1.
      assert (X := IH s1 (x :: lk) nh _ R1 H1 F2). destruct (c_insert_range box next_of vs hd s1) as [u s'|s'|]; auto.
      * destruct X as (xs & H' & Vs & R' & Vk).
        { intros y w [<-|Iy] Iw; [now rewrite Vx; apply F1|]. rewrite Vl by auto. apply Ol; auto. now right. }
        exists (x :: xs). rewrite <- app_assoc in H'. cbn [map rev]. rewrite <- app_assoc. splits; auto.
        -- f_equal; auto. rewrite Vk by now left. auto.
        -- intros y Iy. rewrite Vk by now right. auto.
      * apply X. intros y w [<-|Iy] Iw; [now rewrite Vx; apply F1|]. rewrite Vl by auto. apply Ol; auto. now right.
    + exfalso. destruct W as (Ix & Cf & _). destruct (Ol x v Ix (or_introl eq_refl)) as (_ & N). auto.
Qed.
(** the range is in order already and no value clashes with another one: the index has the order of the range,
    also among equivalent values.  Without this hypothesis it needs not: see [stable_refuted] below *)
Theorem C53_construct_sorted n vs : ForallOrdPairs (fun v w => in_order v w /\ ~ conflict cs w v) vs ->
  match @construct V throws pick hd c0 cs' vs (start throws pick hd cs n) with
  | Ret _ s' => exists xs, holds s' xs /\ map (value_of s') xs = vs
  | Exn _ => True
  | UB => False
  end.
Proof.
  intros F. assert (R : reachable (start throws pick hd cs n) [] []) by (constructor; exists n; reflexivity).
  destruct (holds_some dv [] cs' c0 St_ R) as (ls & l & Sq & Nt). assert (H : holds (start throws pick hd cs n) l) by (exists ls; auto).
  assert (P := perm_this dv St_ R H). symmetry in P. apply Permutation_nil in P. subst l.
  assert (X := sorted_range R H F (fun y w Iy => match Iy with end)).
  assert (Y := @C53_construct_range V throws pick dv hd c0 cs' St_ n vs). cbv zeta in Y. revert Y.
  unfold construct, c_construct_range, try_catch.
  destruct (c_insert_range box next_of vs hd (start throws pick hd cs n)) as [u s'|s'|]; auto.
  - destruct X as (xs & X & Y & _). intros _. exists xs. auto.
  - unfold bind, throw. destruct (c_clear box s'); auto.
Qed.
End Sorted.

(** ** concrete cases.  The indices of [four] are ordered by the value, sequenced, ordered by half the value, random access *)
Definition built (thr : nat -> bool) (vs : list nat) : out (St (box thr next_node 1 four)) unit :=
  @construct nat thr next_node 1 (by_id true) [Sequenced nat 0 0; by_half; RandomAccess nat 0] vs (start thr next_node 1 four 0).
Definition shown (thr : nat -> bool) (o : out (St (box thr next_node 1 four)) unit) : nat * option (list (list node)) * list (node * option nat) :=
  match o with
  | Ret _ s => (0, sequences thr next_node 1 four s, memory thr next_node 1 four s)
  | Exn s => (1, sequences thr next_node 1 four s, memory thr next_node 1 four s)
  | UB => (2, None, [])
  end.
Example some_setting : setting next_node 1 (Focus.all [] [Sequenced nat 0 0; by_half; RandomAccess nat 0] (by_id true)).
Proof. exact four_ok. Qed.
(** the second 6 is not accepted *)
Example some_built : shown (built (fun _ => false) [6; 8; 6; 5]) =
  (0, Some [[4; 2; 3]; [2; 3; 4]; [4; 2; 3]; [2; 3; 4]], [(4, Some 5); (3, Some 8); (2, Some 6); (1, None)]).
Proof. vm_compute. reflexivity. Qed.
Example some_not_built : shown (built (fun n => n =? 12) [6; 8; 6; 5]) = (1, Some [[]; []; []; []], [(1, None)]).
Proof. vm_compute. reflexivity. Qed.
Definition more (thr : nat -> bool) (vs : list nat) : out (St (box thr next_node 1 four)) unit :=
  match built thr [6; 8] with
  | Ret _ s => @insert_values nat thr next_node 1 four vs s
  | _ => UB
  end.
Example some_more : shown (more (fun _ => false) [9; 8; 7]) =
  (0, Some [[2; 5; 3; 4]; [2; 3; 4; 5]; [2; 5; 3; 4]; [2; 3; 4; 5]], [(5, Some 7); (4, Some 9); (3, Some 8); (2, Some 6); (1, None)]).
Proof. vm_compute. reflexivity. Qed.
(** the first value stays *)
Example some_less : shown (more (fun n => n =? 22) [9; 8; 7]) =
  (1, Some [[2; 3; 4]; [2; 3; 4]; [2; 3; 4]; [2; 3; 4]], [(4, Some 9); (3, Some 8); (2, Some 6); (1, None)]).
Proof. vm_compute. reflexivity. Qed.
(** in order, 6 and 7 equivalent *)
Example some_sorted : ForallOrdPairs (fun v w => in_order (fun v => v / 2) Nat.ltb false v w /\ ~ conflict [by_half] w v) [3; 7; 6; 8].
Proof.
  repeat (constructor; [repeat (constructor; [split; [reflexivity|intros (c & [<-|[]] & (Hc & _)); discriminate Hc]|]); constructor|]). constructor.
Qed.
Definition halves (vs : list nat) : option (list (list nat)) :=
  let val s := @value_of nat (fun _ => false) next_node 0 1 [by_half] s in
  match @construct nat (fun _ => false) next_node 1 by_half [] vs (start (fun _ => false) next_node 1 [by_half] 0) with
  | Ret _ s => match sequences (fun _ => false) next_node 1 [by_half] s with Some ls => Some (map (map (val s)) ls) | None => None end
  | _ => None
  end.
Example some_halves : halves [3; 7; 6; 8] = Some [[3; 7; 6; 8]].
Proof. vm_compute. reflexivity. Qed.
(** the equivalent values 6 and 7 are not in the order of the range: the hint for 7, which is the element after 3, is 6 *)
Example stable_refuted : halves [6; 3; 7] = Some [[3; 7; 6]].
Proof. vm_compute. reflexivity. Qed.

Print Assumptions C53_insert_range.
Print Assumptions C53_construct_range.
Print Assumptions C53_construct_sorted.
