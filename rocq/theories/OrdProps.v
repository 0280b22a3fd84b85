(** C10-C18, C20-C22: ordered and ranked indices of containers with any other indices. *)
From Verif Require Import Prelude OrdModel OrdTree OrdHeap OrdRot Layer LayerBase OrdIdx OrdSpec OrdLook OrdRank
  OrdLayer Stack View Container ContOk Iops History ContSpec Client ContEx ContProps Down.
Set Implicit Arguments.
Local Arguments Nat.log2 : simpl never.

(** ** what is found in memory *)

(** the tree under [x], whose parent is [p] *)
Inductive reads (h : heap) : node -> node -> OrdTree.tree -> Prop :=
| reads_E p : reads h p null E
| reads_T p x l r c n tl tr : x <> null -> h x = Some (mk l r p c n) -> reads h x l tl -> reads h x r tr ->
    reads h p x (T c n tl x tr).
(** the colours on the way from the root to the leaves *)
Fixpoint paths (t : OrdTree.tree) : list (list color) :=
  match t with
  | E => [[]]
  | T c _ l _ r => map (cons c) (paths l ++ paths r)
  end.
Definition blacks (p : list color) : nat := length (filter (fun c => match c with Black => true | Red => false end) p).
(** the red-black conditions and their consequence *)
Record red_black (t : OrdTree.tree) : Prop := mkRB {
  rb_root : forall p, In p (paths t) -> List.hd Black p = Black;
  rb_red : forall p p1 p2, In p (paths t) -> p <> p1 ++ Red :: Red :: p2;
  rb_black : forall p q, In p (paths t) -> In q (paths t) -> blacks p = blacks q;
  rb_height : forall p, In p (paths t) -> length p <= 2 * Nat.log2 (OrdTree.size t + 1) }.
(** every count is the number of nodes of the subtree *)
Fixpoint counted (t : OrdTree.tree) : Prop :=
  match t with E => True | T _ n l x r => n = length (inorder (T Red 0 l x r)) /\ counted l /\ counted r end.

Lemma reads_of h p t F : wfc h (cells p t ++ F) -> reads h p (rootp t) t.
Proof.
  revert p F. induction t as [|c n l IHl x r IHr]; intros p F W; cbn [rootp]; [apply reads_E|apply reads_T with (l := rootp l) (r := rootp r)].
  - destruct W as (N & _). cbn in N. inversion N as [|? ? N1 _]; subst. cbn in N1. intros ->. apply N1. now left.
  - eapply wfc_get; [exact W|]. now left.
  - apply (IHl x ((x, mk (rootp l) (rootp r) p c n) :: cells x r ++ F)). eapply wfc_perm; [exact W|]. cbn [cells]. cperm.
  - apply (IHr x ((x, mk (rootp l) (rootp r) p c n) :: cells x l ++ F)). eapply wfc_perm; [exact W|]. cbn [cells]. cperm.
Qed.
Lemma counted_of t : sized t -> counted t.
Proof.
  induction t as [|c n l IHl x r IHr]; cbn; auto. intros (-> & A & B). rewrite app_length. cbn.
  rewrite !size_inorder. splits; auto. lia.
Qed.
Lemma bh_paths t k : bh t k -> forall p, In p (paths t) -> blacks p = k.
Proof.
  induction 1 as [|n l x r k _ IHl _ IHr|n l x r k _ IHl _ IHr]; cbn; intros p I.
  - now destruct I as [<-|[]].
  - apply in_map_iff in I as (q & <- & I). rewrite in_app_iff in I. change (blacks q = k). destruct I; auto.
  - apply in_map_iff in I as (q & <- & I). rewrite in_app_iff in I. change (S (blacks q) = S k). f_equal. destruct I; auto.
Qed.
Lemma paths_hd t p : In p (paths t) -> p <> [] -> exists q, p = colr t :: q.
Proof.
  destruct t as [|c n l x r]; cbn; intros I N.
  - destruct I as [<-|[]]. easy.
  - apply in_map_iff in I as (q & <- & I). eauto.
Qed.
Lemma norr_paths t : norr t -> forall p, In p (paths t) -> forall p1 p2, p <> p1 ++ Red :: Red :: p2.
Proof.
  induction t as [|c n l IHl x r IHr]; cbn; intros N p I p1 p2 E.
  - destruct I as [<-|[]]. now destruct p1.
  - destruct N as (Nl & Nr & H). apply in_map_iff in I as (q & <- & I). rewrite in_app_iff in I.
    destruct p1 as [|c' p1]; cbn in E.
    + injection E as -> ->. destruct (H eq_refl) as (A & B).
      destruct I as [I|I]; apply paths_hd in I as (q' & Q); try easy; rewrite ?A, ?B in Q; discriminate.
    + injection E as <- ->. destruct I as [I|I]; [now apply (IHl Nl _ I p1 p2)|now apply (IHr Nr _ I p1 p2)].
Qed.
Lemma bh_size t k : bh t k -> 2 ^ k <= OrdTree.size t + 1.
Proof. induction 1; cbn in *; lia. Qed.
Lemma path_len p : (forall p1 p2, p <> p1 ++ Red :: Red :: p2) -> length p <= 2 * blacks p + match p with Red :: _ => 1 | _ => 0 end.
Proof.
  induction p as [|c p IH]; cbn; intros H; auto.
  assert (H' : forall p1 p2, p <> p1 ++ Red :: Red :: p2) by (intros p1 p2 ->; now apply (H (c :: p1) p2)).
  specialize (IH H'). destruct c; unfold blacks in *; cbn.
  - destruct p as [|[|] p]; try lia. now destruct (H [] p).
  - destruct p as [|[|] p]; cbn in *; lia.
Qed.
Lemma red_black_of rk t : rbt rk t -> red_black t.
Proof.
  intros (N & (k & B) & Cb & _).
  assert (R : forall p, In p (paths t) -> List.hd Black p = Black).
  { intros p I. destruct p as [|c p]; auto. destruct (paths_hd t I) as (q & E); [easy|]. injection E as -> ->. exact Cb. }
  split; auto.
  - intros p p1 p2 I. now apply (norr_paths t N).
  - intros p q I J. now rewrite (bh_paths B p I), (bh_paths B q J).
  - intros p I. assert (P := path_len (norr_paths t N I)). rewrite (bh_paths B p I) in P. specialize (R p I).
    assert (S1 := bh_size B). apply Nat.log2_le_mono in S1. rewrite Nat.log2_pow2 in S1 by lia.
    destruct p as [|[|] p]; cbn in *; try discriminate; lia.
Qed.

Section Props.
Variable V : Type.
Variable throws : nat -> bool.
Variable pick : list node -> node.
Variable dv : V.
Variable hd : node.
(** the indices before and after the ordered index looked at *)
Variables cs1 cs2 : list (code V).
Variable K : Type.
Variable key : V -> K.
Variable lt : K -> K -> bool.
Variables uniq rk : bool.
Variable junk : cell.
Definition this : code V := Ordered key lt uniq rk junk.
Definition all : list (code V) := cs1 ++ this :: cs2.

Notation box := (box throws pick hd all).
Notation sequences := (@sequences V throws pick hd all).
Notation value_of := (@value_of V throws pick dv hd all).
Notation memory := (@memory V throws pick hd all).
Notation calls := (@calls V throws pick hd all).
Notation reachable := (@reachable V throws pick hd all).
Notation setting := (setting pick hd all).
Notation sup := (stack throws pick hd (mem_world V) cs2).   (* the super of the index *)
Notation this_of := (@down V throws pick hd (mem_world V) (this :: cs2) cs1).

(** the index holds the sequence [l] *)
Definition holds (s : St box) (l : list node) : Prop :=
  exists ls, sequences s = Some ls /\ nth_error ls (length cs1) = Some l.
(** [m], an operation of the index, changes nothing and, unless it throws, its result satisfies [P] *)
Definition answers {A} (s : St box) (m : M (heap * St sup) A) (P : A -> Prop) : Prop :=
  let same n s1 := fst s1 = fst (this_of s) /\ snd s1 = adv sup n (snd (this_of s)) in
  match m (this_of s) with
  | Ret a s1 => P a /\ exists n, quiet throws (calls s) n /\ same n s1
  | Exn s1 => exists n, blown throws (calls s) n /\ same n s1
  | UB => False
  end.

Hypothesis St_ : setting.
Notation S0 := (spec hd (fun _ (_ : unit) => False) (fun _ a => a) all).
Notation S2 := (spec hd (fun _ (_ : unit) => False) (fun _ a => a) cs2).
Notation rep2 := (srep throws pick hd (mem_world V) (fun _ (_ : unit) => True) (fun _ _ => False) (fun _ a => a) cs2).
Notation O := (box_ok throws dv St_).

Lemma sup_ok : OK throws pick dv hd sup S2 rep2 (@sshell V throws pick hd (mem_world V) unit (fun _ _ => True) cs2).
Proof.
  apply stack_ok; [apply St_|apply mem_world_ok|]. assert (F := s_codes St_). unfold all in F.
  apply Forall_app in F as (_ & F). now inversion F.
Qed.
Lemma this_swo : swo lt.
Proof.
  assert (F := s_codes St_). unfold all in F. apply Forall_app in F as (_ & F). now inversion F.
Qed.

Lemma open_this s lk nh l : reachable s lk nh -> holds s l ->
  exists t hs, tat hd hs (fst (this_of s)) t [] /\ rbt rk t /\ inorder t = l /\
    (forall x, In x l -> live (bget sup (snd (this_of s))) x) /\
    Permutation l lk /\ cget sup (snd (this_of s)) = length l /\ bget sup (snd (this_of s)) = bget box s /\
    sorted key lt uniq (value_of s) l.
Proof.
  intros R (ls & Sq & Nt). destruct (open dv St_ R Sq) as (a & G & -> & Lv).
  assert (Rd := @down_rep V throws pick hd (mem_world V) (this :: cs2) unit _ _ _ cs1 s a (g_rep G)). cbn in Rd. destruct Rd as ((t & hs & TA & RB & E) & _).
  assert (Bd := down_bget throws pick hd (mem_world V) (this :: cs2) cs1 s). cbn in Bd.
  assert (Cd := down_cget throws pick hd (mem_world V) (this :: cs2) cs1 s). cbn in Cd.
  assert (El := down_els hd (this :: cs2) (fun _ (_ : unit) => False) (fun _ a => a) cs1 a 0).
  rewrite Nat.add_0_r in El. cbn in El. fold all in El. rewrite Nt in El. injection El as El.
  assert (Sr := down_aok hd (this :: cs2) (fun _ (_ : unit) => False) (fun _ a => a) cs1 _ a (g_ok G)). cbn in Sr.
  rewrite <- El in *. destruct Sr as (Sr & _).
  assert (P : Permutation l lk).
  { assert (F := i_perm (g_inv G)). rewrite Forall_forall in F. apply F. eapply nth_error_In; eauto. }
  exists t, hs. splits; auto.
  - intros x I. refine (eq_ind_r (fun b => live b x) _ Bd). apply (i_live (g_inv G)). eapply Permutation_in; eauto.
  - etransitivity; [exact Cd|]. rewrite (Permutation_length P). apply (g_cnt G).
Qed.
Lemma adv_self s : adv sup (calls s) (snd (this_of s)) = snd (this_of s).
Proof.
  unfold adv. assert (Bd : bget sup (snd (this_of s)) = bget box s).
  { exact (down_bget throws pick hd (mem_world V) (this :: cs2) cs1 s). }
  assert (C : tk (bget sup (snd (this_of s))) = calls s) by exact (f_equal (@tk V) Bd).
  rewrite <- C. transitivity (bset sup (bget sup (snd (this_of s))) (snd (this_of s))); [|apply (o_gs sup_ok)].
  f_equal. now destruct (bget sup (snd (this_of s))).
Qed.
Lemma ro_answers A s (m : M (heap * St sup) A) P :
  @Ro V throws sup (fst (this_of s)) (snd (this_of s)) A m P -> answers s m P.
Proof.
  intros R. specialize (R (calls s)). unfold wp in R. rewrite adv_self in R. rewrite <- surjective_pairing in R.
  unfold answers. destruct (m (this_of s)) as [a s1|s1|]; auto.
  - destruct R as (Pa & n & Q & ->). eauto.
  - destruct R as (n & B & ->). eauto.
Qed.
Lemma vals s : value_of s = val dv (bget sup (snd (this_of s))).
Proof. exact (f_equal (val dv) (eq_sym (down_bget throws pick hd (mem_world V) (this :: cs2) cs1 s))). Qed.
Lemma each_nth (R : code V -> list node -> list node -> Prop) cs ls ls' i c l :
  each R cs ls ls' -> nth_error cs i = Some c -> nth_error ls i = Some l ->
  exists l', nth_error ls' i = Some l' /\ R c l l'.
Proof.
  intros Ea. revert i. induction Ea as [|d cs' m ms m' ms' H Ea' IH]; intros [|i] A B; cbn in *; try discriminate.
  - injection A as ->. injection B as ->. eauto.
  - eauto.
Qed.
Lemma this_at : nth_error all (length cs1) = Some this.
Proof. unfold all. now rewrite nth_error_app2, Nat.sub_diag by lia. Qed.
Lemma each_this R s' ls l : (exists ls', sequences s' = Some ls' /\ each R all ls ls') ->
  nth_error ls (length cs1) = Some l -> exists l', holds s' l' /\ R this l l'.
Proof.
  intros (ls' & Sq & Ea) Nt. destruct (each_nth (length cs1) Ea this_at Nt) as (l' & N' & H). exists l'. split; auto.
  exists ls'. auto.
Qed.
Lemma perm_this s lk nh l : reachable s lk nh -> holds s l -> Permutation l lk.
Proof. intros R H. destruct (open_this R H) as (t & hs & _ & _ & _ & _ & P & _). exact P. Qed.
Lemma nodup_this s lk nh l : reachable s lk nh -> holds s l -> NoDup l.
Proof.
  intros R H. destruct (open_this R H) as (t & hs & TA & _ & <- & _). eapply nd_l. exact TA.
Qed.
Lemma rel_le a b : rel lt uniq a b = true -> lt b a = false.
Proof.
  unfold rel. destruct uniq; [|apply Bool.negb_true_iff]. intros H. destruct (lt b a) eqn:E; auto.
  assert (W := this_swo). rewrite <- (w_irr W a). symmetry. now apply (w_trans W) with b.
Qed.

Implicit Types (s : St box) (lk nh l : list node).

(** use what is known about a lookup *)
Ltac look L TA Cg := eapply L; first [exact sup_ok|exact TA|eassumption|apply Nat.eq_le_incl; refine (eq_trans (size_inorder _) (eq_trans _ (eq_sym Cg))); congruence|idtac].

(** ** C10 *)
Theorem C10_sorted s lk nh l : reachable s lk nh -> holds s l ->
  Permutation l lk /\ NoDup l /\
  StronglySorted (fun x y => lt (key (value_of s y)) (key (value_of s x)) = false) l /\
  (uniq = true -> StronglySorted (fun x y => lt (key (value_of s x)) (key (value_of s y)) = true) l).
Proof.
  intros R H. destruct (open_this R H) as (t & hs & _ & _ & _ & _ & P & _ & _ & Sr). splits; auto.
  - eapply nodup_this; eauto.
  - clear H P. unfold sorted in Sr. induction Sr as [|x l' S1 IH F]; constructor; auto.
    eapply Forall_impl; [|exact F]. intros y Hy. cbv beta in Hy. now apply rel_le.
  - intros U. unfold sorted, rel in Sr. rewrite U in Sr. exact Sr.
Qed.
(** [x], of value [v], has been inserted without a hint *)
Definition after_equals s s' l x v : Prop :=
  exists l1 l2, l = l1 ++ l2 /\ holds s' (l1 ++ x :: l2) /\
    (forall y, In y l1 -> lt (key v) (key (value_of s y)) = false) /\
    (forall y, In y l2 -> lt (key v) (key (value_of s y)) = true).
Lemma linked_this s s' lk ls nh l hint x v : reachable s lk nh -> sequences s = Some ls ->
  nth_error ls (length cs1) = Some l -> @linked V throws pick dv hd all s s' lk ls hint x v ->
  exists l', holds s' l' /\ o_ins key lt uniq hd (value_of s') hint l x l' /\ value_of s' x = v /\
    forall y, In y l -> value_of s' y = value_of s y.
Proof.
  intros R Sq Nt (A & B & C & D & Ea). destruct (each_this s' Ea Nt) as (l' & H & I). exists l'. splits; auto.
  intros y Iy. apply B. eapply Permutation_in; [|exact Iy]. eapply perm_this; [exact R|]. exists ls. auto.
Qed.
Lemma linked_after s s' lk ls nh l x v : reachable s lk nh -> sequences s = Some ls ->
  nth_error ls (length cs1) = Some l -> @linked V throws pick dv hd all s s' lk ls None x v ->
  after_equals s s' l x v.
Proof.
  intros R Sq Nt L. destruct (linked_this R Sq Nt L) as (l' & H & (l1 & l2 & -> & -> & F1 & F2) & <- & Vy).
  exists l1, l2. splits; auto; intros y I.
  - rewrite Forall_forall in F1. rewrite <- (Vy y); [now apply rel_le, F1|]. apply in_or_app. auto.
  - rewrite Forall_forall in F2. rewrite <- (Vy y); [now apply F2|]. apply in_or_app. auto.
Qed.
Theorem C10_insert s lk nh l v : reachable s lk nh -> holds s l ->
  match c_insert box v None s with
  | Ret (x, true) s' => after_equals s s' l x v
  | UB => False
  | _ => True
  end.
Proof.
  intros R (ls & Sq & Nt). assert (W := C01_C02_insert dv St_ v None R Sq I).
  destruct (c_insert box v None s) as [(x, [|]) s'|s'|]; auto. eapply linked_after; eauto. apply W.
Qed.
Theorem C10_emplace s lk nh l v : reachable s lk nh -> holds s l ->
  match c_emplace throws pick box v None s with
  | Ret (x, true) s' => after_equals s s' l x v
  | UB => False
  | _ => True
  end.
Proof.
  intros R (ls & Sq & Nt). assert (W := C01_C02_emplace dv St_ v None R Sq I).
  destruct (c_emplace throws pick box v None s) as [(x, [|]) s'|s'|]; auto. eapply linked_after; eauto. apply W.
Qed.
Theorem C10_insert_handle s lk nh l x : reachable s lk nh -> holds s l -> In x nh ->
  match c_insert_nh hd box (Some x) None s with
  | Ret (_, true, _) s' => after_equals s s' l x (value_of s x)
  | UB => False
  | _ => True
  end.
Proof.
  intros R (ls & Sq & Nt) Ix. assert (W := C48_insert_handle dv St_ x None R Sq Ix I).
  destruct (c_insert_nh hd box (Some x) None s) as [((y, [|]), h) s'|s'|]; auto. eapply linked_after; eauto. apply W.
Qed.

(** ** C11, C22 *)
(** the header of the index says where its tree [t] is *)
Definition has_tree s (t : OrdTree.tree) : Prop :=
  exists rt first last c n, fst (this_of s) hd = Some (mk first last rt c n) /\ reads (fst (this_of s)) hd rt t /\
    first = List.hd hd (inorder t) /\ last = List.last (inorder t) hd.
Theorem C11_C22_tree s lk nh l : reachable s lk nh -> holds s l ->
  exists t, has_tree s t /\ inorder t = l /\ red_black t /\ (rk = true -> counted t).
Proof.
  intros R H. destruct (open_this R H) as (t & hs & TA & RB & E & _). exists t. splits; auto.
  - assert (Hc : fst (this_of s) hd = Some (hcell hd hs t)) by (eapply wfc_get; [exact TA|now left]).
    unfold hcell in Hc. unfold has_tree. do 5 eexists. split; [exact Hc|]. splits; auto.
    eapply reads_of. eapply wfc_perm; [exact TA|]. rewrite app_nil_r.
    change ((hd, hcell hd hs t) :: cells hd t) with ([(hd, hcell hd hs t)] ++ cells hd t). apply Permutation_app_comm.
  - eapply red_black_of, RB.
  - intros U. apply counted_of, RB, U.
Qed.

(** ** C12 *)
Notation OM := (M (heap * St sup)).
(** [steps]: the elements met by [n] steps from [p] on, and where they lead; [back]: where each step leads *)
Fixpoint steps (step : node -> OM node) (n : nat) (p : node) : OM (list node * node) :=
  match n with
  | 0 => ret ([], p)
  | S n => q <- step p ;; r <- steps step n q ;; ret (p :: fst r, snd r)
  end.
Fixpoint back (step : node -> OM node) (n : nat) (p : node) : OM (list node) :=
  match n with
  | 0 => ret []
  | S n => q <- step p ;; r <- back step n q ;; ret (q :: r)
  end.
Theorem C12_begin s lk nh l : reachable s lk nh -> holds s l -> answers s (o_begin hd sup) (fun r => r = List.hd hd l).
Proof.
  intros R H. destruct (open_this R H) as (t & hs & TA & _ & <- & Lv & _ & Cg & _). apply ro_answers.
  eapply begin_ok; exact TA.
Qed.
Theorem C12_next s lk nh l1 x l2 : reachable s lk nh -> holds s (l1 ++ x :: l2) ->
  answers s (o_next sup x) (fun r => r = List.hd hd l2).
Proof.
  intros R H. destruct (open_this R H) as (t & hs & TA & _ & E & Lv & _ & Cg & _). apply ro_answers.
  look next_ok TA Cg.
Qed.
Theorem C12_prev s lk nh l1 x l2 : reachable s lk nh -> holds s (l1 ++ x :: l2) -> l1 <> [] ->
  answers s (o_prev sup x) (fun r => r = last l1 hd).
Proof.
  intros R H N. destruct (open_this R H) as (t & hs & TA & (_ & _ & Cb & _) & E & Lv & _ & Cg & _). apply ro_answers.
  look prev_ok TA Cg.
Qed.
Theorem C12_prev_end s lk nh l : reachable s lk nh -> holds s l -> l <> [] ->
  answers s (o_prev sup hd) (fun r => r = last l hd).
Proof.
  intros R H N. destruct (open_this R H) as (t & hs & TA & _ & <- & Lv & _ & Cg & _). apply ro_answers.
  look prev_end_ok TA Cg.
Qed.
(** from begin() to end() and back *)
Theorem C12_forward s lk nh l : reachable s lk nh -> holds s l ->
  answers s (p <- o_begin hd sup ;; steps (o_next sup) (length l) p) (fun r => r = (l, hd)).
Proof.
  intros R H. destruct (open_this R H) as (t & hs & TA & _ & E & Lv & _ & Cg & _). apply ro_answers.
  eapply Ro_bind; [eapply begin_ok; exact TA|]. intros p ->. rewrite E.
  assert (X : forall l2 l1, l = l1 ++ l2 ->
    @Ro V throws sup (fst (this_of s)) (snd (this_of s)) _ (steps (o_next sup) (length l2) (List.hd hd l2)) (fun r => r = (l2, hd))).
  { induction l2 as [|x l2 IH]; intros l1 El; cbn [length steps List.hd].
    - now apply Ro_ret.
    - eapply Ro_bind; [subst l; look next_ok TA Cg|].
      intros q ->. eapply Ro_bind; [apply (IH (l1 ++ [x])); now rewrite <- app_assoc|].
        intros r ->. now apply Ro_ret. }
  apply (X l []). reflexivity.
Qed.
Theorem C12_backward s lk nh l : reachable s lk nh -> holds s l ->
  answers s (back (o_prev sup) (length l) hd) (fun r => r = rev l).
Proof.
  intros R H. destruct (open_this R H) as (t & hs & TA & (_ & _ & Cb & _) & E & Lv & _ & Cg & _). apply ro_answers.
  assert (X : forall l1 x l2, l = l1 ++ x :: l2 ->
    @Ro V throws sup (fst (this_of s)) (snd (this_of s)) _ (back (o_prev sup) (length l1) x) (fun r => r = rev l1)).
  { induction l1 as [|y l1 IH] using rev_ind; intros x l2 El.
    - now apply Ro_ret.
    - rewrite app_length, Nat.add_comm. cbn [length Nat.add back].
      eapply Ro_bind; [subst l; look prev_ok TA Cg; now destruct l1|].
      intros q ->. rewrite last_last. eapply Ro_bind; [apply (IH y (x :: l2)); now rewrite <- app_assoc in El|].
      intros r ->. apply Ro_ret. now rewrite rev_app_distr. }
  destruct l as [|x l0 _] using rev_ind; [now apply Ro_ret|].
  rewrite app_length, Nat.add_comm. cbn [length Nat.add back].
  eapply Ro_bind; [look prev_end_ok TA Cg; rewrite E; now destruct l0|].
  intros q ->. rewrite E, last_last. eapply Ro_bind; [apply (X l0 x []); reflexivity|].
  intros r ->. apply Ro_ret. now rewrite rev_app_distr.
Qed.

(** ** C13 *)
(** the index holds [l] and everything needed to walk over it is in place *)
Definition walkable s' l : Prop :=
  holds s' l /\ answers s' (o_begin hd sup) (fun r => r = List.hd hd l) /\
  (l <> [] -> answers s' (o_prev sup hd) (fun r => r = last l hd)) /\
  forall m1 y m2, l = m1 ++ y :: m2 -> answers s' (o_next sup y) (fun r => r = List.hd hd m2) /\
    (m1 <> [] -> answers s' (o_prev sup y) (fun r => r = last m1 hd)).
Lemma reach_walk s lk nh l : reachable s lk nh -> holds s l -> walkable s l.
Proof.
  intros R H. split; auto. splits.
  - eapply C12_begin; eauto.
  - intros N. eapply C12_prev_end; eauto.
  - intros m1 y m2 ->. split; [eapply C12_next; eauto|]. intros N. eapply C12_prev; eauto.
Qed.
Lemma holds_removed s s' ls l1 x l2 : NoDup (l1 ++ x :: l2) -> nth_error ls (length cs1) = Some (l1 ++ x :: l2) ->
  sequences s' = Some (map (remove Nat.eq_dec x) ls) -> holds s' (l1 ++ l2).
Proof.
  intros ND Nt Sq'. exists (map (remove Nat.eq_dec x) ls). split; auto. erewrite map_nth_error; [|exact Nt].
  f_equal. now apply remove_mid.
Qed.
Theorem C13_erase s lk nh l1 x l2 : reachable s lk nh -> holds s (l1 ++ x :: l2) ->
  match c_erase box x s with
  | Ret _ s' => walkable s' (l1 ++ l2) /\ forall y, In y (l1 ++ l2) -> value_of s' y = value_of s y
  | _ => False
  end.
Proof.
  intros R H. assert (H0 := H). destruct H as (ls & Sq & Nt).
  assert (Ix : In x lk).
  { eapply Permutation_in; [eapply perm_this; eauto|]. apply in_or_app. right. now left. }
  assert (W := C05_erase dv St_ x R Sq Ix). destruct (c_erase box x s) as [u s'|s'|] eqn:Ex; auto.
  destruct W as (_ & M & _ & Sq'). assert (ND := nodup_this R H0). split.
  - apply reach_walk with (lk := remove Nat.eq_dec x lk) (nh := nh); [|eapply holds_removed; eauto].
    refine (@reach_ret V throws pick hd box _ _ _ _ s lk nh (Erase _ _ x) Nothing s' R Ix _).
    cbn [exec]. unfold bind. now rewrite Ex.
  - intros y Iy. unfold Client.value_of, val. change (mem (bget box s')) with (memory s'). rewrite M.
    rewrite look_mdel. destruct (Nat.eqb_spec y x) as [->|]; auto. exfalso. apply NoDup_remove_2 in ND. auto.
Qed.
Theorem C13_extract s lk nh l1 x l2 : reachable s lk nh -> holds s (l1 ++ x :: l2) ->
  match c_extract box x s with
  | Ret _ s' => walkable s' (l1 ++ l2) /\ memory s' = memory s
  | _ => False
  end.
Proof.
  intros R H. assert (H0 := H). destruct H as (ls & Sq & Nt).
  assert (Ix : In x lk).
  { eapply Permutation_in; [eapply perm_this; eauto|]. apply in_or_app. right. now left. }
  assert (W := C48_extract dv St_ x R Sq Ix). destruct (c_extract box x s) as [u s'|s'|] eqn:Ex; auto.
  destruct W as (_ & M & _ & _ & Sq'). assert (ND := nodup_this R H0). split; auto.
  apply reach_walk with (lk := remove Nat.eq_dec x lk) (nh := x :: nh); [|eapply holds_removed; eauto].
  refine (@reach_ret V throws pick hd box _ _ _ _ s lk nh (Extract _ _ x) Nothing s' R Ix _).
  cbn [exec]. unfold bind. now rewrite Ex.
Qed.

(** ** C14 *)
(** [below a] says that [a] comes before the key looked for, [above a] that it comes after; they are
    [comp(a,x)] and [comp(x,a)] for the comparison used for the lookup *)
Record compatible (below above : K -> bool) : Prop := mkComp {
  c_low : forall a b, lt b a = false -> below b = true -> below a = true;
  c_high : forall a b, lt b a = false -> above a = true -> above b = true;
  c_one : forall a, below a = true -> above a = false }.
(** a key of the index itself is one possibility *)
Lemma compatible_key k : compatible (fun a => lt a k) (fun a => lt k a).
Proof.
  assert (W := this_swo). split.
  - intros a b N H. destruct (w_weak W b k a H); congruence.
  - intros a b N H. destruct (w_weak W k a b H); congruence.
  - intros a H. destruct (lt k a) eqn:E; auto. rewrite <- (w_irr W a). symmetry. now apply (w_trans W) with k.
Qed.
Lemma sorted_mono (p : K -> bool) vl l : (forall a b, lt b a = false -> p a = true -> p b = true) ->
  sorted key lt uniq vl l -> mono (fun x => p (key (vl x))) l.
Proof.
  intros P Sr. unfold sorted in Sr. unfold mono. induction Sr as [|x l' S1 IH F]; constructor; auto.
  eapply Forall_impl; [|exact F]. intros y Hy. cbv beta in Hy. intros Hx. eapply P; [|exact Hx]. now apply rel_le.
Qed.
Lemma low_mono below above a b : compatible below above -> lt b a = false -> negb (below a) = true -> negb (below b) = true.
Proof.
  intros C N H. apply Bool.negb_true_iff in H. apply Bool.negb_true_iff. destruct (below b) eqn:B; auto.
  rewrite (c_low C N B) in H. discriminate.
Qed.
Lemma sorted_cut below above vl l : compatible below above -> sorted key lt uniq vl l ->
  cut (fun x => below (key (vl x))) (fun x => above (key (vl x))) l.
Proof.
  intros C Sr. split.
  - apply (sorted_mono (fun a => negb (below a))); auto. intros a b. eapply low_mono; eauto.
  - apply sorted_mono; auto. apply (c_high C).
  - intros x _. apply (c_one C).
Qed.
Notation k_of s := (fun x => key (value_of s x)).
Ltac start R H t TA RB Cg Et Sr :=
  let hs := fresh "hs" in let Lv := fresh "Lv" in
  destruct (open_this R H) as (t & hs & TA & RB & Et & Lv & _ & Cg & _ & Sr); apply ro_answers; rewrite vals in Sr |- *;
  subst.
Theorem C14_lower_bound s lk nh l below above : reachable s lk nh -> holds s l -> compatible below above ->
  answers s (lower_bound throws key hd sup below) (fun r => r = first hd (fun x => negb (below (k_of s x))) l).
Proof.
  intros R H C. start R H t TA RB Cg Et Sr. look lower_bound_ok TA Cg. apply (sorted_cut C Sr).
Qed.
Theorem C14_upper_bound s lk nh l below above : reachable s lk nh -> holds s l -> compatible below above ->
  answers s (upper_bound throws key hd sup above) (fun r => r = first hd (fun x => above (k_of s x)) l).
Proof.
  intros R H C. start R H t TA RB Cg Et Sr. look upper_bound_ok TA Cg. apply (sorted_cut C Sr).
Qed.
Theorem C14_equal_range s lk nh l below above : reachable s lk nh -> holds s l -> compatible below above ->
  answers s (equal_range throws key hd sup below above)
    (fun r => r = (first hd (fun x => negb (below (k_of s x))) l, first hd (fun x => above (k_of s x)) l)).
Proof.
  intros R H C. start R H t TA RB Cg Et Sr. look equal_range_ok TA Cg. apply (sorted_cut C Sr).
Qed.
(** the elements looked for *)
Notation hit s below above := (fun x => negb (below (k_of s x)) && negb (above (k_of s x))).
Theorem C14_find s lk nh l below above : reachable s lk nh -> holds s l -> compatible below above ->
  answers s (OrdIdx.find throws key hd sup below above) (fun r => r = first hd (hit s below above) l).
Proof.
  intros R H C. start R H t TA RB Cg Et Sr. look find_ok TA Cg. apply (sorted_cut C Sr).
Qed.
Theorem C14_contains s lk nh l below above : reachable s lk nh -> holds s l -> compatible below above ->
  answers s (contains throws key hd sup below above) (fun r => r = true <-> exists x, In x l /\ hit s below above x = true).
Proof.
  intros R H C. start R H t TA RB Cg Et Sr. eapply Ro_conseq; [look contains_ok TA Cg; apply (sorted_cut C Sr)|].
  intros a ->. apply existsb_exists.
Qed.
Theorem C14_count s lk nh l below above : reachable s lk nh -> holds s l -> compatible below above ->
  answers s (OrdIdx.count throws key hd sup below above) (fun r => r = length (filter (hit s below above) l)).
Proof.
  intros R H C. start R H t TA RB Cg Et Sr. look count_ok TA Cg. apply (sorted_cut C Sr).
Qed.

(** ** C15 *)
Lemma first_at (p : node -> bool) (l1 l2 : list node) : (forall x, In x l1 -> p x = false) -> (forall x, In x l2 -> p x = true) ->
  first hd p (l1 ++ l2) = List.hd hd l2.
Proof.
  intros F G. induction l1 as [|a l1 IH]; unfold first; cbn.
  - destruct l2 as [|x l2]; auto. cbn. now rewrite (G x (or_introl eq_refl)).
  - rewrite (F a (or_introl eq_refl)). apply IH. intros x I. apply F. now right.
Qed.
(** bounders; an absent one is [unbounded] *)
Definition sat (b : option (K -> bool)) (a : K) : bool := match b with Some p => p a | None => true end.
(** a lower bounder accepts everything after what it accepts, an upper one everything before *)
Definition bounders (lower upper : option (K -> bool)) : Prop :=
  (forall a b, lt b a = false -> sat lower a = true -> sat lower b = true) /\
  (forall a b, lt b a = false -> sat upper b = true -> sat upper a = true).
Theorem C15_range s lk nh l lower upper : reachable s lk nh -> holds s l -> bounders lower upper ->
  answers s (range throws key hd sup lower upper) (fun r =>
    exists l1 m l2, l = l1 ++ m ++ l2 /\ r = (List.hd hd (m ++ l2), List.hd hd l2) /\
      (forall x, In x l1 -> sat lower (k_of s x) = false) /\
      (forall x, In x m -> sat lower (k_of s x) = true /\ sat upper (k_of s x) = true) /\
      (forall x, In x l2 -> sat lower (k_of s x) = true /\ sat upper (k_of s x) = false)).
Proof.
  intros R H (BL & BU). destruct (open_this R H) as (t & hs & TA & RB & E & Lv & _ & Cg & _ & Sr); apply ro_answers.
  assert (M1 : mono (fun x => sat lower (k_of s x)) l) by now apply sorted_mono.
  assert (M2 : mono (fun x => negb (sat upper (k_of s x))) l).
  { apply (sorted_mono (fun a => negb (sat upper a))); auto. intros a b N. rewrite !Bool.negb_true_iff. intros Ha.
    destruct (sat upper b) eqn:Hb; auto. rewrite (BU _ _ N Hb) in Ha. discriminate. }
  destruct (mono_split M1) as (l1 & l' & E1 & F1 & F2).
  assert (M3 : mono (fun x => negb (sat upper (k_of s x))) l').
  { rewrite E1 in M2. now apply sorted_app in M2 as (_ & M2 & _). }
  destruct (mono_split M3) as (m & l2 & E2 & F3 & F4). rewrite Forall_forall in *.
  eapply Ro_conseq.
  - rewrite vals in M1, M2. rewrite <- E in M1, M2, Lv. look range_ok TA Cg.
  - intros r ->. exists l1, m, l2. subst l'. splits; auto.
    + f_equal; rewrite E, E1; [|rewrite app_assoc]; apply first_at.
      * intros x I. apply F1 in I. rewrite vals in I. now destruct lower.
      * intros x I. apply F2 in I. rewrite vals in I. now destruct lower.
      * intros x I. apply in_app_or in I as [I|I].
        -- apply F1 in I. rewrite vals in I. destruct lower; [|discriminate]. cbn in *. now rewrite I.
        -- apply F3 in I. rewrite vals in I. apply Bool.andb_false_iff. right. now destruct upper.
      * intros x I. apply Bool.andb_true_iff. split.
        -- assert (J : In x (m ++ l2)) by (apply in_or_app; auto). apply F2 in J. rewrite vals in J. now destruct lower.
        -- apply F4 in I. rewrite vals in I. now destruct upper.
    + intros x I. split; [apply F2, in_or_app; auto|]. apply F3 in I. now apply Bool.negb_false_iff in I.
    + intros x I. split; [apply F2, in_or_app; auto|]. apply F4 in I. now apply Bool.negb_true_iff in I.
Qed.

(** ** C16 *)
(** key [a] may come before key [b] *)
Definition before (a b : K) : Prop := if uniq then lt a b = true else lt b a = false.
(** an element with value [v] may be put between [l1] and [l2] *)
Definition between s v l1 l2 : Prop :=
  (forall y, In y l1 -> before (key (value_of s y)) (key v)) /\ (forall y, In y l2 -> before (key v) (key (value_of s y))).
(** [x], of value [v], has been inserted at a place as close as possible to the place before [p] *)
Definition near_hint s s' l p x v : Prop :=
  exists l1 l2 h1 h2, l = l1 ++ l2 /\ holds s' (l1 ++ x :: l2) /\ between s v l1 l2 /\
    l = h1 ++ h2 /\ p = List.hd hd h2 /\
    forall m1 m2, l = m1 ++ m2 -> between s v m1 m2 ->
      (length l1 - length h1) + (length h1 - length l1) <= (length m1 - length h1) + (length h1 - length m1).
Lemma before_rel a b : before a b <-> rel lt uniq a b = true.
Proof. unfold before, rel. destruct uniq; [tauto|]. now rewrite Bool.negb_true_iff. Qed.
Lemma linked_near s s' lk ls nh l p x v : reachable s lk nh -> sequences s = Some ls ->
  nth_error ls (length cs1) = Some l -> @linked V throws pick dv hd all s s' lk ls (Some p) x v ->
  near_hint s s' l p x v.
Proof.
  intros R Sq Nt L. destruct (linked_this R Sq Nt L) as (l' & H & (l1 & l2 & E1 & -> & A & h1 & h2 & E2 & P & Cl) & <- & Vy).
  assert (X : forall m1 m2, l = m1 ++ m2 -> (adm key lt uniq (value_of s') (key (value_of s' x)) m1 m2 <->
                                           between s (value_of s' x) m1 m2)).
  { intros m1 m2 ->. unfold adm, between. rewrite !Forall_forall. split.
    - intros (F & G). split; intros y I; apply before_rel; rewrite <- (Vy y) by (apply in_or_app; auto); auto.
    - intros (F & G). split; intros y I; apply before_rel; rewrite (Vy y) by (apply in_or_app; auto); auto. }
  exists l1, l2, h1, h2. splits; auto.
  - now apply X.
  - intros m1 m2 E B. apply (Cl m1 m2 E). now apply X.
Qed.
Theorem C16_insert s lk nh l v p : reachable s lk nh -> holds s l -> In p (hd :: l) ->
  match c_insert box v (Some p) s with
  | Ret (x, true) s' => near_hint s s' l p x v /\ forall y, In y l -> ~ clash this v (value_of s y)
  | Ret (x, false) s' => In x l /\ conflict all v (value_of s x) /\ holds s' l
  | Exn s' => holds s' l
  | UB => False
  end.
Proof.
  intros R H Ip. assert (H0 := H). destruct H as (ls & Sq & Nt). assert (Pm := perm_this R H0).
  assert (Hp : hint_ok hd (Some p) lk).
  { destruct Ip as [E|I]; [now left|]. right. eapply Permutation_in; eauto. }
  assert (W := C01_C02_insert dv St_ v (Some p) R Sq Hp).
  assert (Un : forall s', @no_effect V throws pick dv hd all s s' ls -> holds s' l).
  { intros s' (_ & _ & Ea). destruct (each_this s' Ea Nt) as (l' & H' & ->). auto. }
  destruct (c_insert box v (Some p) s) as [(x, [|]) s'|s'|]; auto.
  - destruct W as (_ & _ & L). split; [eapply linked_near; eauto|]. destruct L as (_ & _ & _ & N & _).
    intros y I C. apply (N y); [eapply Permutation_in; eauto|]. exists this. split; auto. unfold all. apply in_or_app.
    right. now left.
  - destruct W as (I & C & N). splits; auto. eapply Permutation_in; [symmetry; exact Pm|auto].
  - apply Un, W.
Qed.
Theorem C16_emplace s lk nh l v p : reachable s lk nh -> holds s l -> In p (hd :: l) ->
  match c_emplace throws pick box v (Some p) s with
  | Ret (x, true) s' => near_hint s s' l p x v
  | Ret (x, false) s' => In x l /\ conflict all v (value_of s x) /\ holds s' l
  | Exn s' => holds s' l
  | UB => False
  end.
Proof.
  intros R H Ip. assert (H0 := H). destruct H as (ls & Sq & Nt). assert (Pm := perm_this R H0).
  assert (Hp : hint_ok hd (Some p) lk).
  { destruct Ip as [E|I]; [now left|]. right. eapply Permutation_in; eauto. }
  assert (W := C01_C02_emplace dv St_ v (Some p) R Sq Hp).
  assert (Un : forall s', @no_effect V throws pick dv hd all s s' ls -> holds s' l).
  { intros s' (_ & _ & Ea). destruct (each_this s' Ea Nt) as (l' & H' & ->). auto. }
  destruct (c_emplace throws pick box v (Some p) s) as [(x, [|]) s'|s'|]; auto.
  - destruct W as (_ & _ & L). eapply linked_near; eauto.
  - destruct W as (I & C & N). splits; auto. eapply Permutation_in; [symmetry; exact Pm|auto].
  - apply Un, W.
Qed.
Theorem C16_insert_handle s lk nh l x p : reachable s lk nh -> holds s l -> In x nh -> In p (hd :: l) ->
  match c_insert_nh hd box (Some x) (Some p) s with
  | Ret (_, true, _) s' => near_hint s s' l p x (value_of s x)
  | Ret (_, false, _) s' | Exn s' => holds s' l
  | UB => False
  end.
Proof.
  intros R H Ix Ip. assert (H0 := H). destruct H as (ls & Sq & Nt). assert (Pm := perm_this R H0).
  assert (Hp : hint_ok hd (Some p) lk).
  { destruct Ip as [E|I]; [now left|]. right. eapply Permutation_in; eauto. }
  assert (W := C48_insert_handle dv St_ x (Some p) R Sq Ix Hp).
  assert (Un : forall s', @no_effect V throws pick dv hd all s s' ls -> holds s' l).
  { intros s' (_ & _ & Ea). destruct (each_this s' Ea Nt) as (l' & H' & ->). auto. }
  destruct (c_insert_nh hd box (Some x) (Some p) s) as [((y, [|]), h) s'|s'|]; auto.
  - destruct W as (_ & _ & _ & L). eapply linked_near; eauto.
  - apply Un, W.
  - apply Un, W.
Qed.

(** ** C17 *)
Theorem C17_replace s lk nh l v x : reachable s lk nh -> holds s l -> In x l ->
  match c_replace box v x s with
  | Ret true _ => True
  | Ret false s' | Exn s' => walkable s' l /\ memory s' = memory s
  | UB => False
  end.
Proof.
  intros R H Ix. assert (H0 := H). destruct H as (ls & Sq & Nt).
  assert (Ix' : In x lk) by (eapply Permutation_in; [eapply perm_this; eauto|auto]).
  assert (W := C06_replace dv St_ v x R Sq Ix'). destruct (c_replace box v x s) as [[|] s'|s'|] eqn:Ex; auto.
  - destruct W as (_ & M & Sq' & _). split; auto. apply reach_walk with (lk := lk) (nh := nh); [|now exists ls].
    refine (@reach_ret V throws pick hd box _ _ _ _ s lk nh (Replace _ v x) (Flag false) s' R Ix' _).
    cbn [exec]. unfold bind. now rewrite Ex.
  - destruct W as (_ & M & Sq' & _). split; auto. apply reach_walk with (lk := lk) (nh := nh); [|now exists ls].
    refine (@reach_exn V throws pick hd box _ _ _ _ s lk nh (Replace _ v x) s' R Ix' _).
    cbn [exec]. unfold bind. now rewrite Ex.
Qed.
(** modify with rollback, [back] restoring the value; after an exception the element is gone
    (C09) *)
Theorem C17_rollback s lk nh l f fx g gx x : reachable s lk nh -> holds s l -> In x l -> (forall v, g (f v) = v) ->
  match c_modify_rb throws box f fx g gx x s with
  | Ret true _ => True
  | Ret false s' => walkable s' l /\ memory s' = memory s
  | Exn s' => walkable s' (remove Nat.eq_dec x l)
  | UB => False
  end.
Proof.
  intros R H Ix Gf. assert (H0 := H). destruct H as (ls & Sq & Nt).
  assert (Ix' : In x lk) by (eapply Permutation_in; [eapply perm_this; eauto|auto]).
  assert (W := C09_modify_rollback_partial dv St_ f fx g gx x R Sq Ix' Gf).
  destruct (c_modify_rb throws box f fx g gx x s) as [[|] s'|s'|] eqn:Ex; auto.
  - destruct W as (_ & M & Sq' & _). split; auto. apply reach_walk with (lk := lk) (nh := nh); [|now exists ls].
    refine (@reach_ret V throws pick hd box _ _ _ _ s lk nh (ModifyRb _ f fx g gx x) (Flag false) s' R (conj Ix' Gf) _).
    cbn [exec]. unfold bind. now rewrite Ex.
  - destruct W as (_ & M & _ & Sq'). apply reach_walk with (lk := remove Nat.eq_dec x lk) (nh := nh).
    + refine (@reach_exn V throws pick hd box _ _ _ _ s lk nh (ModifyRb _ f fx g gx x) s' R (conj Ix' Gf) _).
      cbn [exec]. unfold bind. now rewrite Ex.
    + exists (map (remove Nat.eq_dec x) ls). split; auto. erewrite map_nth_error; [|exact Nt]. reflexivity.
Qed.

(** ** C18 *)
(** value [v] is all right for the element between [l1] and [l2], as far as its neighbours are concerned *)
Definition consistent s v l1 l2 : Prop :=
  (forall p m, l1 = m ++ [p] -> before (key (value_of s p)) (key v)) /\
  (forall n m, l2 = n :: m -> before (key v) (key (value_of s n))).
Lemma rel_trans a b c : rel lt uniq a b = true -> rel lt uniq b c = true -> rel lt uniq a c = true.
Proof.
  assert (W := this_swo). unfold rel. destruct uniq; [apply (w_trans W)|]. rewrite !Bool.negb_true_iff. intros A B.
  destruct (lt c a) eqn:C; auto. destruct (w_weak W c a b C); congruence.
Qed.
Lemma consistent_between s v l1 x l2 : sorted key lt uniq (value_of s) (l1 ++ x :: l2) -> consistent s v l1 l2 -> between s v l1 l2.
Proof.
  intros Sr (Cp & Cn). unfold sorted in Sr. apply sorted_app in Sr as (S1 & S2 & _). inversion S2 as [|? ? S3 _]; subst.
  split; intros y I; apply before_rel.
  - destruct l1 as [|p m _] using rev_ind; [easy|]. specialize (Cp p m eq_refl). apply before_rel in Cp.
    apply in_app_or in I as [I|[->|[]]]; auto. eapply rel_trans; [|exact Cp].
    apply sorted_app in S1 as (_ & _ & X). apply X; auto. now left.
  - destruct l2 as [|n m]; [easy|]. specialize (Cn n m eq_refl). apply before_rel in Cn.
    destruct I as [->|I]; auto. eapply rel_trans; [exact Cn|]. inversion S3 as [|? ? _ F]; subst.
    rewrite Forall_forall in F. now apply F.
Qed.
Lemma ss_in (Q Q' : node -> node -> Prop) l : (forall x y, In x l -> In y l -> Q x y -> Q' x y) ->
  StronglySorted Q l -> StronglySorted Q' l.
Proof.
  intros I Sr. revert I. induction Sr as [|x l S1 IH F]; intros I; constructor.
  - apply IH. intros; apply I; cbn; auto.
  - rewrite Forall_forall in *. intros y J. apply I; cbn; auto.
Qed.
Lemma changed_this s s' lk nh ls l1 x l2 v : reachable s lk nh -> sequences s = Some ls ->
  nth_error ls (length cs1) = Some (l1 ++ x :: l2) -> @changed V throws pick dv hd all s s' lk ls x v ->
  exists l', holds s' l' /\ remove Nat.eq_dec x l' = l1 ++ l2 /\
    (consistent s v l1 l2 -> l' = l1 ++ x :: l2) /\
    (~ consistent s v l1 l2 -> exists m1 m2, l1 ++ l2 = m1 ++ m2 /\ l' = m1 ++ x :: m2 /\
       (forall y, In y m1 -> before (key (value_of s y)) (key v)) /\
       (forall y, In y m2 -> lt (key v) (key (value_of s y)) = true)).
Proof.
  intros R Sq Nt (M & _ & _ & Ea). destruct (each_this s' Ea Nt) as (l' & H' & (E1 & _ & A & B)).
  assert (H : holds s (l1 ++ x :: l2)) by now exists ls. assert (ND := nodup_this R H).
  destruct (open_this R H) as (t & hs & _ & _ & _ & Lv & Pm & _ & Bd & Sr).
  assert (Lx : live (bget box s) x) by (rewrite <- Bd; apply Lv, in_or_app; right; now left).
  assert (Vx : value_of s' x = v).
  { unfold Client.value_of, val. change (mem (bget box s')) with (memory s'). rewrite M, look_mset, Nat.eqb_refl.
    unfold live in Lx. change (mem (bget box s)) with (memory s) in Lx. destruct Lx as (w & Lx). now rewrite Lx. }
  assert (Vy : forall y, In y (l1 ++ l2) -> value_of s' y = value_of s y).
  { intros y I. unfold Client.value_of, val. change (mem (bget box s')) with (memory s'). rewrite M, look_mset.
    destruct (Nat.eqb_spec y x) as [->|]; auto. exfalso. apply NoDup_remove_2 in ND. auto. }
  rewrite remove_mid in E1, B by auto.
  assert (Sr' : between s v l1 l2 <-> sorted key lt uniq (value_of s') (l1 ++ x :: l2)).
  { unfold sorted in *. rewrite sorted_mid in Sr |- *. rewrite Vx, !Forall_forall. destruct Sr as (S1 & _). split.
    - intros (F & G). splits.
      + eapply ss_in; [|exact S1]. cbv beta. intros a b I J. now rewrite !Vy.
      + intros y I. apply before_rel. rewrite Vy by (apply in_or_app; auto). auto.
      + intros y I. apply before_rel. rewrite Vy by (apply in_or_app; auto). auto.
    - intros (_ & F & G). split; intros y I; apply before_rel; rewrite <- Vy by (apply in_or_app; auto); auto. }
  exists l'. splits; auto.
  - intros C. apply A, Sr'. eapply consistent_between; eauto.
  - intros C. destruct B as (m1 & m2 & E & -> & F & G).
    + intros S'. apply C. apply Sr' in S' as (F & G). split.
      * intros p m ->. apply F, in_or_app. right. now left.
      * intros n m ->. apply G. now left.
    + exists m1, m2. rewrite Forall_forall in *. splits; auto; intros y I.
      * apply before_rel. rewrite <- (Vy y) by (rewrite E; apply in_or_app; auto). rewrite <- Vx. auto.
      * rewrite <- (Vy y) by (rewrite E; apply in_or_app; auto). rewrite <- Vx. auto.
Qed.
(** a key equivalent to the present one is consistent *)
Lemma equivalent_consistent s lk nh l1 x l2 v : reachable s lk nh -> holds s (l1 ++ x :: l2) ->
  lt (key v) (key (value_of s x)) = false -> lt (key (value_of s x)) (key v) = false -> consistent s v l1 l2.
Proof.
  intros R H E1 E2. destruct (open_this R H) as (t & hs & _ & _ & _ & _ & _ & _ & _ & Sr).
  assert (W := this_swo). unfold sorted in Sr. apply sorted_mid in Sr as (_ & F & G). rewrite !Forall_forall in F, G. split.
  - intros p m ->. specialize (F p (in_or_app m [p] p (or_intror (or_introl eq_refl)))). apply before_rel in F. unfold before in *.
    destruct uniq.
    + destruct (w_weak W _ _ (key v) F); congruence.
    + destruct (lt (key v) (key (value_of s p))) eqn:Q; auto. destruct (w_weak W _ _ (key (value_of s x)) Q); congruence.
  - intros n m ->. specialize (G n (or_introl eq_refl)). apply before_rel in G. unfold before in *.
    destruct uniq.
    + destruct (w_weak W _ _ (key v) G); congruence.
    + destruct (lt (key (value_of s n)) (key v)) eqn:Q; auto. destruct (w_weak W _ _ (key (value_of s x)) Q); congruence.
Qed.
(** where an element whose key is not consistent goes *)
Definition relocated s s' l1 x l2 v : Prop :=
  exists m1 m2, l1 ++ l2 = m1 ++ m2 /\ holds s' (m1 ++ x :: m2) /\
    (forall y, In y m1 -> before (key (value_of s y)) (key v)) /\
    (forall y, In y m2 -> lt (key v) (key (value_of s y)) = true).
Theorem C18_replace s lk nh l1 x l2 v : reachable s lk nh -> holds s (l1 ++ x :: l2) ->
  match c_replace box v x s with
  | Ret true s' => (consistent s v l1 l2 -> holds s' (l1 ++ x :: l2)) /\
                   (~ consistent s v l1 l2 -> relocated s s' l1 x l2 v)
  | UB => False
  | _ => True
  end.
Proof.
  intros R H. assert (H0 := H). destruct H as (ls & Sq & Nt).
  assert (Ix' : In x lk).
  { eapply Permutation_in; [eapply perm_this; eauto|]. apply in_or_app. right. now left. }
  assert (W := C06_replace dv St_ v x R Sq Ix'). destruct (c_replace box v x s) as [[|] s'|s'|]; auto.
  destruct (changed_this l1 l2 R Sq Nt W) as (l' & H & _ & A & B). split; [intros C; now rewrite <- (A C)|].
  intros C. destruct (B C) as (m1 & m2 & E & -> & F). exists m1, m2. auto.
Qed.
Theorem C18_modify s lk nh l1 x l2 f fx : reachable s lk nh -> holds s (l1 ++ x :: l2) ->
  let v := f (value_of s x) in
  match c_modify throws box f fx x s with
  | Ret true s' => (consistent s v l1 l2 -> holds s' (l1 ++ x :: l2)) /\
                   (~ consistent s v l1 l2 -> relocated s s' l1 x l2 v)
  | UB => False
  | _ => True
  end.
Proof.
  intros R H v. assert (H0 := H). destruct H as (ls & Sq & Nt).
  assert (Ix' : In x lk).
  { eapply Permutation_in; [eapply perm_this; eauto|]. apply in_or_app. right. now left. }
  assert (W := C07_modify dv St_ f fx x R Sq Ix'). destruct (c_modify throws box f fx x s) as [[|] s'|s'|]; auto.
  destruct (changed_this l1 l2 R Sq Nt W) as (l' & H & _ & A & B). split; [intros C; now rewrite <- (A C)|].
  intros C. destruct (B C) as (m1 & m2 & E & -> & F). exists m1, m2. auto.
Qed.
Theorem C18_equivalent s lk nh l1 x l2 v : reachable s lk nh -> holds s (l1 ++ x :: l2) ->
  lt (key v) (key (value_of s x)) = false -> lt (key (value_of s x)) (key v) = false ->
  match c_replace box v x s with
  | Ret _ s' | Exn s' => holds s' (l1 ++ x :: l2)
  | UB => False
  end.
Proof.
  intros R H E1 E2. assert (C := @equivalent_consistent s lk nh l1 x l2 v R H E1 E2).
  assert (Ix : In x (l1 ++ x :: l2)) by (apply in_or_app; right; now left).
  assert (W := @C18_replace s lk nh l1 x l2 v R H). assert (W' := @C17_replace s lk nh _ v x R H Ix).
  destruct (c_replace box v x s) as [[|] s'|s'|]; auto; [now apply W| |]; apply W'.
Qed.

(** ** C20 *)
Hypothesis Rk : rk = true.
Lemma sized_of t : rbt rk t -> sized t.
Proof. intros (_ & _ & _ & Sd). auto. Qed.
Ltac rlook L TA RB Cg := look L TA Cg; try exact (sized_of RB);
  try (match goal with Lv : forall x, In x _ -> live _ x |- forall x, In x _ -> live _ _ =>
         let y := fresh in let I := fresh in intros y I; apply Lv; congruence end).
Theorem C20_nth s lk nh l n : reachable s lk nh -> holds s l ->
  answers s (OrdIdx.nth hd sup n) (fun r => r = List.nth n l hd).
Proof.
  intros R H. destruct (open_this R H) as (t & hs & TA & RB & E & Lv & _ & Cg & _ & Sr). apply ro_answers. rewrite <- E.
  rlook nth_ok TA RB Cg.
Qed.
Theorem C20_rank s lk nh l1 x l2 : reachable s lk nh -> holds s (l1 ++ x :: l2) ->
  answers s (rank hd sup x) (fun r => r = length l1).
Proof.
  intros R H. destruct (open_this R H) as (t & hs & TA & RB & E & Lv & _ & Cg & _ & Sr). apply ro_answers.
  rlook rank_ok TA RB Cg.
Qed.
Theorem C20_rank_end s lk nh l : reachable s lk nh -> holds s l -> answers s (rank hd sup hd) (fun r => r = length l).
Proof.
  intros R H. destruct (open_this R H) as (t & hs & TA & RB & E & Lv & _ & Cg & _ & Sr). apply ro_answers. rewrite <- E.
  rlook rank_end_ok TA RB Cg.
Qed.
Lemma rank_at s lk nh l n : reachable s lk nh -> holds s l -> n <= length l ->
  @Ro V throws sup (fst (this_of s)) (snd (this_of s)) _ (rank hd sup (List.nth n l hd)) (fun r => r = n).
Proof.
  intros R H N. destruct (open_this R H) as (t & hs & TA & RB & E & Lv & _ & Cg & _ & Sr).
  destruct (Nat.eq_dec n (length l)) as [->|Ne].
  - rewrite nth_overflow by auto. rewrite <- E. rlook rank_end_ok TA RB Cg.
  - assert (N' : n < length l) by lia. destruct (List.nth_split l hd N') as (l1 & l2 & El & <-). set (x := List.nth (length l1) l hd) in *.
    rlook rank_ok TA RB Cg. rewrite E. exact El.
Qed.
(** rank(nth(n)) = n, nth(rank(x)) = x *)
Theorem C20_rank_nth s lk nh l n : reachable s lk nh -> holds s l -> n <= length l ->
  answers s (x <- OrdIdx.nth hd sup n ;; rank hd sup x) (fun r => r = n).
Proof.
  intros R H N. apply ro_answers. destruct (open_this R H) as (t & hs & TA & RB & E & Lv & _ & Cg & _ & Sr).
  eapply Ro_bind; [rlook nth_ok TA RB Cg|]. intros x ->. rewrite E. eapply rank_at; eauto.
Qed.
Theorem C20_nth_rank s lk nh l x : reachable s lk nh -> holds s l -> In x (hd :: l) ->
  answers s (n <- rank hd sup x ;; OrdIdx.nth hd sup n) (fun r => r = x).
Proof.
  intros R H Ix. apply ro_answers. destruct (open_this R H) as (t & hs & TA & RB & E & Lv & _ & Cg & _ & Sr).
  assert (X : exists n, n <= length l /\ x = List.nth n l hd).
  { destruct Ix as [<-|Ix]; [exists (length l); now rewrite nth_overflow|].
    apply In_nth with (d := hd) in Ix as (n & L & <-). exists n. split; auto. lia. }
  destruct X as (n & L & ->). eapply Ro_bind; [eapply rank_at; eauto|]. intros m ->. rewrite <- E. rlook nth_ok TA RB Cg.
Qed.

(** ** C21 *)
(** the two operations agree and give [p] *)
Definition agree {A} s (m m' : OM A) (p : A) : Prop := answers s m (fun r => r = p) /\ answers s m' (fun r => r = p).
Lemma rank_first s lk nh l p : reachable s lk nh -> holds s l ->
  @Ro V throws sup (fst (this_of s)) (snd (this_of s)) _ (rank hd sup (first hd p l)) (fun r => r = position p l).
Proof. intros R H. rewrite <- pos_nth. eapply rank_at; eauto. apply pos_le. Qed.
Ltac both R H C TA RB Cg L1 L2 t :=
  let hs := fresh "hs" in let Et := fresh "Et" in let Lv := fresh "Lv" in let Sr := fresh "Sr" in
  destruct (open_this R H) as (t & hs & TA & RB & Et & Lv & _ & Cg & _ & Sr); 
  rewrite vals in Sr |- *; rewrite <- Et in H, Sr, Lv, Cg |- *; split; apply ro_answers;
  [rlook L1 TA RB Cg; try apply (sorted_cut C Sr)
  |eapply Ro_bind; [rlook L2 TA RB Cg; try apply (sorted_cut C Sr)|]].
Theorem C21_lower_bound_rank s lk nh l below above : reachable s lk nh -> holds s l -> compatible below above ->
  agree s (lower_bound_rank throws key hd sup below) (x <- lower_bound throws key hd sup below ;; rank hd sup x)
    (position (fun x => negb (below (k_of s x))) l).
Proof.
  intros R H C. both R H C TA RB Cg lower_bound_rank_ok lower_bound_ok t. intros x ->. eapply rank_first; eauto.
Qed.
Theorem C21_upper_bound_rank s lk nh l below above : reachable s lk nh -> holds s l -> compatible below above ->
  agree s (upper_bound_rank throws key hd sup above) (x <- upper_bound throws key hd sup above ;; rank hd sup x)
    (position (fun x => above (k_of s x)) l).
Proof.
  intros R H C. both R H C TA RB Cg upper_bound_rank_ok upper_bound_ok t. intros x ->. eapply rank_first; eauto.
Qed.
Theorem C21_find_rank s lk nh l below above : reachable s lk nh -> holds s l -> compatible below above ->
  agree s (find_rank throws key hd sup below above) (x <- OrdIdx.find throws key hd sup below above ;; rank hd sup x)
    (position (hit s below above) l).
Proof.
  intros R H C. both R H C TA RB Cg find_rank_ok find_ok t. intros x ->. eapply rank_first; eauto.
Qed.
(** ranks of both *)
Definition ranks (p : node * node) : OM (nat * nat) :=
  a <- rank hd sup (fst p) ;; b <- rank hd sup (snd p) ;; ret (a, b).
Theorem C21_equal_range_rank s lk nh l below above : reachable s lk nh -> holds s l -> compatible below above ->
  agree s (equal_range_rank throws key hd sup below above) (p <- equal_range throws key hd sup below above ;; ranks p)
    (position (fun x => negb (below (k_of s x))) l, position (fun x => above (k_of s x)) l).
Proof.
  intros R H C. both R H C TA RB Cg equal_range_rank_ok equal_range_ok t. intros x ->. unfold ranks. cbn [fst snd].
  eapply Ro_bind; [eapply rank_first; eauto|]. intros a ->. eapply Ro_bind; [eapply rank_first; eauto|]. intros b ->. now apply Ro_ret.
Qed.
(** the count of a ranked index is computed from ranks *)
Theorem C21_count s lk nh l below above : reachable s lk nh -> holds s l -> compatible below above ->
  agree s (rcount throws key hd sup below above) (OrdIdx.count throws key hd sup below above)
    (length (filter (hit s below above) l)).
Proof.
  intros R H C. split; [|eapply C14_count; eauto].
  destruct (open_this R H) as (t & hs & TA & RB & Et & Lv & _ & Cg & _ & Sr). apply ro_answers.
  rewrite vals in Sr |- *. rewrite <- Et in *. rlook rcount_ok TA RB Cg; apply (sorted_cut C Sr).
Qed.
Theorem C21_range_rank s lk nh l lower upper : reachable s lk nh -> holds s l -> bounders lower upper ->
  agree s (range_rank throws key hd sup lower upper) (p <- range throws key hd sup lower upper ;; ranks p)
    (position (fun x => sat lower (k_of s x)) l,
     position (fun x => sat lower (k_of s x) && negb (sat upper (k_of s x))) l).
Proof.
  intros R H (BL & BU). destruct (open_this R H) as (t & hs & TA & RB & E & Lv & _ & Cg & _ & Sr).
  assert (M1 : mono (fun x => sat lower (k_of s x)) l) by now apply sorted_mono.
  assert (M2 : mono (fun x => negb (sat upper (k_of s x))) l).
  { apply (sorted_mono (fun a => negb (sat upper a))); auto. intros a b N. rewrite !Bool.negb_true_iff. intros Ha.
    destruct (sat upper b) eqn:Hb; auto. rewrite (BU _ _ N Hb) in Ha. discriminate. }
  rewrite vals in M1, M2 |- *. rewrite <- E in H, M1, M2, Lv, Cg |- *.
  split; apply ro_answers; [rlook range_rank_ok TA RB Cg|eapply Ro_bind; [rlook range_ok TA RB Cg|]].
  - rewrite <- (size_inorder t) in Cg. symmetry. exact Cg.
  - intros x ->. unfold ranks. cbn [fst snd].
    eapply Ro_bind; [eapply rank_first; eauto|]. intros a ->. eapply Ro_bind; [eapply rank_first; eauto|]. intros b ->. now apply Ro_ret.
Qed.
End Props.

(** ** instances: the unique index and the ranked index of [four] *)
Notation half := (fun v => v / 2).
Notation two := [by_id true; Sequenced nat 0 0].
Lemma half_four : all two [RandomAccess nat 0] half Nat.ltb false true junk0 = four.
Proof. reflexivity. Qed.
Example some_holds :
  holds at23 next_node 1 two [RandomAccess nat 0] half Nat.ltb false true junk0 some_state [4; 2; 5; 3] /\
  holds at23 next_node 1 [] [Sequenced nat 0 0; by_half; RandomAccess nat 0] (fun v => v) Nat.ltb true false junk0
    some_state [4; 2; 5; 3] /\
  reachable at23 next_node 1 four some_state [5; 4; 3; 2] [] /\ setting next_node 1 four.
Proof.
  splits; [..|exact some_reach|exact four_ok]; eexists; (split; [exact some_sequences|reflexivity]).
Qed.
(** the part of [some_state] seen by the ranked index; the values are 5 6 7 8, the keys 2 3 3 4 *)
Definition ranked := down at23 next_node 1 (mem_world nat) (by_half :: [RandomAccess nat 0]) two some_state.
Notation sup_half := (stack at23 next_node 1 (mem_world nat) [RandomAccess nat 0]).
Definition got {S A} (o : out S A) : option A := match o with Ret a _ => Some a | _ => None end.
Example some_lookups :
  got (OrdIdx.find at23 half 1 sup_half (fun a => a <? 3) (fun a => 3 <? a) ranked) = Some 2 /\
  got (OrdIdx.count at23 half 1 sup_half (fun a => a <? 3) (fun a => 3 <? a) ranked) = Some 2 /\
  got (lower_bound at23 half 1 sup_half (fun a => a <? 3) ranked) = Some 2 /\
  got (upper_bound at23 half 1 sup_half (fun a => 3 <? a) ranked) = Some 3 /\
  got (range at23 half 1 sup_half (Some (fun a => 2 <? a)) None ranked) = Some (2, 1) /\
  got (range at23 half 1 sup_half (Some (fun a => 3 <=? a)) (Some (fun a => a <? 3)) ranked) = Some (2, 2) /\
  got (OrdIdx.nth 1 sup_half 2 ranked) = Some 5 /\ got (rank 1 sup_half 5 ranked) = Some 2 /\
  got (find_rank at23 half 1 sup_half (fun a => a <? 4) (fun a => 4 <? a) ranked) = Some 3.
Proof. vm_compute. auto 10. Qed.
(** a new element goes after those equivalent to it, or as near to the hint as possible *)
Definition six : St (box (fun _ => false) next_node 1 four) :=
  fst (play (fun _ => false) next_node 1 four
    (map (fun v => Insert _ v None) [6; 8; 5; 7; 10; 12]) (start (fun _ => false) next_node 1 four 0) [] []).
Definition third {A} (o : out (St (box (fun _ => false) next_node 1 four)) A) : option (list node) :=
  match o with
  | Ret _ s => match sequences (fun _ => false) next_node 1 four s with Some ls => nth_error ls 2 | None => None end
  | _ => None
  end.
Example some_places :
  third (ret tt six) = Some [4; 2; 5; 3; 6; 7] /\
  third (c_insert (box (fun _ => false) next_node 1 four) 9 None six) = Some [4; 2; 5; 3; 8; 6; 7] /\
  third (c_insert (box (fun _ => false) next_node 1 four) 9 (Some 4) six) = Some [4; 2; 5; 8; 3; 6; 7] /\
  third (c_insert (box (fun _ => false) next_node 1 four) 9 (Some 1) six) = Some [4; 2; 5; 3; 8; 6; 7] /\
  third (c_replace (box (fun _ => false) next_node 1 four) 13 2 six) = Some [4; 5; 3; 6; 7; 2] /\
  third (c_replace (box (fun _ => false) next_node 1 four) 9 5 six) = Some [4; 2; 5; 3; 6; 7] /\
  third (c_replace (box (fun _ => false) next_node 1 four) 8 5 six) = Some [4; 2; 5; 3; 6; 7].
Proof. vm_compute. auto 10. Qed.

Print Assumptions C10_sorted.
Print Assumptions C10_insert.
Print Assumptions C10_emplace.
Print Assumptions C10_insert_handle.
Print Assumptions C11_C22_tree.
Print Assumptions C12_begin.
Print Assumptions C12_next.
Print Assumptions C12_prev.
Print Assumptions C12_prev_end.
Print Assumptions C12_forward.
Print Assumptions C12_backward.
Print Assumptions C13_erase.
Print Assumptions C13_extract.
Print Assumptions C14_lower_bound.
Print Assumptions C14_upper_bound.
Print Assumptions C14_equal_range.
Print Assumptions C14_find.
Print Assumptions C14_contains.
Print Assumptions C14_count.
Print Assumptions C15_range.
Print Assumptions C16_insert.
Print Assumptions C16_emplace.
Print Assumptions C16_insert_handle.
Print Assumptions C17_replace.
Print Assumptions C17_rollback.
Print Assumptions C18_replace.
Print Assumptions C18_modify.
Print Assumptions C18_equivalent.
Print Assumptions C20_nth.
Print Assumptions C20_rank.
Print Assumptions C20_rank_end.
Print Assumptions C20_rank_nth.
Print Assumptions C20_nth_rank.
Print Assumptions C21_lower_bound_rank.
Print Assumptions C21_upper_bound_rank.
Print Assumptions C21_find_rank.
Print Assumptions C21_equal_range_rank.
Print Assumptions C21_count.
Print Assumptions C21_range_rank.
