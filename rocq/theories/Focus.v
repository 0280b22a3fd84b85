(** One index of a container with any other indices: what its operations do to it. *)
From Verif Require Import Prelude Layer LayerBase Stack View Container ContOk Iops Up Down History ContSpec Client ContProps.
Set Implicit Arguments.

Section Focus.
Variable V : Type.
Variable throws : nat -> bool.
Variable pick : list node -> node.
Variable dv : V.
Variable hd : node.
(** the indices before and after the index looked at *)
Variables cs1 cs2 : list (code V).
Variable this : code V.
Definition all : list (code V) := cs1 ++ this :: cs2.

Notation box := (box throws pick hd all).
Notation sequences := (@sequences V throws pick hd all).
Notation count := (@count V throws pick hd all).
Notation value_of := (@value_of V throws pick dv hd all).
Notation memory := (@memory V throws pick hd all).
Notation calls := (@calls V throws pick hd all).
Notation reachable := (@reachable V throws pick hd all).
Notation setting := (setting pick hd all).
Notation sup := (stack throws pick hd (mem_world V) cs2).   (* the super of the index *)
Notation this_of := (@down V throws pick hd (mem_world V) (this :: cs2) cs1).
Implicit Types (s : St box) (lk nh l : list node) (ls : list (list node)).

(** the index holds the sequence [l] *)
Definition holds s l : Prop := exists ls, sequences s = Some ls /\ nth_error ls (length cs1) = Some l.
(** an operation of the index, seen as an operation of the container *)
Definition of_index {A} (m : M (St (layer_of throws pick hd this sup)) A) : M (St box) A :=
  @up V throws pick hd (mem_world V) (this :: cs2) A m cs1.
(** the other indices hold what they held *)
Definition others s s' : Prop :=
  forall ls, sequences s = Some ls -> exists l', sequences s' = Some (set_nth (length cs1) l' ls).

Hypothesis St_ : setting.
Notation S0 := (spec hd (fun _ (_ : unit) => False) (fun _ a => a) all).
Notation S2 := (spec hd (fun _ (_ : unit) => False) (fun _ a => a) cs2).
Notation rep2 := (srep throws pick hd (mem_world V) (fun _ (_ : unit) => True) (fun _ _ => False) (fun _ a => a) cs2).
Notation O := (box_ok throws dv St_).

Lemma sup_ok : OK throws pick dv hd sup S2 rep2 (@sshell V throws pick hd (mem_world V) unit (fun _ _ => True) cs2).
Proof.
  apply stack_ok; [apply St_|apply mem_world_ok|]. assert (F := s_codes St_). unfold all in F.
  apply Forall_app in F as (_ & F). now inversion F.
Qed.
Lemma this_code_ok : code_ok this.
Proof. assert (F := s_codes St_). unfold all in F. apply Forall_app in F as (_ & F). now inversion F. Qed.
Lemma this_at : nth_error all (length cs1) = Some this.
Proof. unfold all. now rewrite nth_error_app2, Nat.sub_diag by lia. Qed.
Lemma each_nth i (R : code V -> list node -> list node -> Prop) cs ls ls' c l :
  each R cs ls ls' -> nth_error cs i = Some c -> nth_error ls i = Some l ->
  exists l', nth_error ls' i = Some l' /\ R c l l'.
Proof.
  intros Ea. revert i. induction Ea as [|d cs' m ms m' ms' H Ea' IH]; intros [|i] A B; cbn in *; try discriminate.
  - injection A as ->. injection B as ->. eauto.
  - eauto.
Qed.
Lemma each_this R s' ls l : (exists ls', sequences s' = Some ls' /\ each R all ls ls') ->
  nth_error ls (length cs1) = Some l -> exists l', holds s' l' /\ R this l l'.
Proof.
  intros (ls' & Sq & Ea) Nt. destruct (each_nth (length cs1) Ea this_at Nt) as (l' & N' & H). exists l'. split; auto.
  exists ls'. auto.
Qed.
Lemma holds_fun s l l' : holds s l -> holds s l' -> l = l'.
Proof. intros (ls & A & B) (ls' & A' & B'). congruence. Qed.
Lemma set_nth_at {A} i (x : A) (ks : list A) : i < length ks -> nth_error (set_nth i x ks) i = Some x.
Proof. revert i. induction ks as [|y ks IH]; intros [|i] H; cbn in *; auto; try lia. apply IH. lia. Qed.
Lemma set_nth_id {A} i (x : A) (ks : list A) : nth_error ks i = Some x -> set_nth i x ks = ks.
Proof. revert i. induction ks as [|y ks IH]; intros [|i] H; cbn in *; try easy; [congruence|]. f_equal. auto. Qed.
Lemma set_nth_twice {A} i (x y : A) (ks : list A) : set_nth i x (set_nth i y ks) = set_nth i x ks.
Proof. revert i. induction ks as [|z ks IH]; intros [|i]; cbn in *; auto. f_equal. auto. Qed.
Lemma set_nth_map {A B} (f : A -> B) i x (ks : list A) : map f (set_nth i x ks) = set_nth i (f x) (map f ks).
Proof. revert i. induction ks as [|z ks IH]; intros [|i]; cbn in *; auto. f_equal. auto. Qed.
Lemma set_nth_len {A} i (x : A) (ks : list A) : length (set_nth i x ks) = length ks.
Proof. revert i. induction ks as [|z ks IH]; intros [|i]; cbn in *; auto. Qed.

(** what there is to know about the index in a state which has been reached *)
Lemma open_at s lk nh l : reachable s lk nh -> holds s l ->
  exists a, @rep_of V throws pick hd this sup S2 rep2 (this_of s) a /\ l = kel (kind_of hd this) (fst a) /\
    kok (kind_of hd this) (value_of s) (fst a) /\
    (forall x, In x l -> live (bget box s) x) /\ Permutation l lk /\ NoDup (hd :: l) /\ count s = length l /\
    bget (layer_of throws pick hd this sup) (this_of s) = bget box s /\
    cget (layer_of throws pick hd this sup) (this_of s) = length l.
Proof.
  intros R (ls & Sq & Nt). destruct (open dv St_ R Sq) as (a & G & -> & Lv).
  exists (adown hd (this :: cs2) (fun _ (_ : unit) => False) (fun _ a => a) cs1 a).
  assert (Rd := @down_rep V throws pick hd (mem_world V) (this :: cs2) unit _ _ _ cs1 s a (g_rep G)).
  assert (El := down_els hd (this :: cs2) (fun _ (_ : unit) => False) (fun _ a => a) cs1 a 0).
  rewrite Nat.add_0_r in El. cbn in El. fold all in El. rewrite Nt in El. injection El as El.
  assert (Sr := down_aok hd (this :: cs2) (fun _ (_ : unit) => False) (fun _ a => a) cs1 _ a (g_ok G)). cbn in Sr.
  assert (P : Permutation l lk).
  { assert (F := i_perm (g_inv G)). rewrite Forall_forall in F. apply F. eapply nth_error_In; eauto. }
  assert (Bd := down_bget throws pick hd (mem_world V) (this :: cs2) cs1 s). cbn in Bd.
  assert (Cd := down_cget throws pick hd (mem_world V) (this :: cs2) cs1 s). cbn in Cd.
  assert (Cl : count s = length l) by (rewrite (Permutation_length P); apply (g_cnt G)).
  splits; auto.
  - apply Sr.
  - intros x I. apply (i_live (g_inv G)). eapply Permutation_in; eauto.
  - eapply NoDup_perm; [constructor; symmetry; exact P|]. assert (N := i_mem (g_inv G)). rewrite (g_mem G) in N.
    inversion N as [|? ? _ N']; subst. change (hd :: lk ++ nh) with ((hd :: lk) ++ nh) in N'. now apply NoDup_app_iff in N' as (N' & _).
  - etransitivity; [exact Cd|exact Cl].
Qed.
Lemma perm_this s lk nh l : reachable s lk nh -> holds s l -> Permutation l lk.
Proof. intros R H. destruct (open_at R H) as (a & _ & _ & _ & _ & P & _). exact P. Qed.
Lemma nodup_this s lk nh l : reachable s lk nh -> holds s l -> NoDup (hd :: l).
Proof. intros R H. destruct (open_at R H) as (a & _ & _ & _ & _ & _ & P & _). exact P. Qed.
Lemma holds_some s lk nh : reachable s lk nh -> exists ls l, sequences s = Some ls /\ nth_error ls (length cs1) = Some l.
Proof.
  intros R. destruct (reachable_good dv St_ R) as ((a & G) & Lv). assert (Vw : sequences s = Some (els S0 a)) by (eapply good_views; eauto).
  assert (Ln : length (els S0 a) = length all) by apply spec_len.
  destruct (nth_error (els S0 a) (length cs1)) as [l|] eqn:E; [eauto|]. apply nth_error_None in E.
  unfold all in Ln. rewrite app_length in Ln. cbn in Ln. unfold all in E. lia.
Qed.

(** operations which leave the elements alone *)
Theorem index_effect s lk nh ls l o : reachable s lk nh -> sequences s = Some ls -> nth_error ls (length cs1) = Some l ->
  iallowed hd this l o ->
  match run_index throws pick hd all (length cs1, o) s with
  | Ret _ s' => reachable s' lk nh /\ memory s' = memory s /\ count s' = count s /\ quiet throws (calls s) (calls s') /\
      exists l', ieffect hd this (value_of s) o l l' /\ sequences s' = Some (set_nth (length cs1) l' ls) /\ holds s' l'
  | Exn s' => reachable s' lk nh /\ memory s' = memory s /\ count s' = count s /\
      exists l', ieffect_exn o l l' /\ sequences s' = Some (set_nth (length cs1) l' ls) /\ holds s' l'
  | UB => False
  end.
Proof.
  intros R Sq Nt Al. destruct (open dv St_ R Sq) as (a & G & Els & Lv).
  assert (At : can_index throws pick hd all s (length cs1, o)).
  { exists this, ls, l. splits; auto. apply this_at. }
  destruct (at_good (s_pick St_) (mem_world_ok V) (s_codes St_) G At) as (c & l0 & Nc & Nl & _ & W).
  cbn [fst snd] in Nc, Nl, W. rewrite this_at in Nc. injection Nc as <-. subst ls. rewrite Nt in Nl. injection Nl as <-.
  unfold wp in W. change (at_index throws pick hd (mem_world V) all (length cs1) o s) with (run_index throws pick hd all (length cs1, o) s) in W.
  assert (Lt : length cs1 < length (els S0 a)) by (apply nth_error_Some; congruence).
  destruct (run_index throws pick hd all (length cs1, o) s) as [u s'|s'|] eqn:E; [| |exact W].
  - destruct W as (a' & l' & D & G'). assert (V' : sequences s' = Some (els S0 a')) by (eapply good_views; eauto). splits; try apply D.
    + refine (@reach_ret V throws pick hd box _ _ _ _ s lk nh (Index _ (length cs1, o)) Nothing s' R At _).
      cbn [exec]. unfold bind. now rewrite E.
    + exists l'. rewrite (ad_els D) in V'. splits; auto; [apply D|]. exists (set_nth (length cs1) l' (els S0 a)).
      split; auto. now apply set_nth_at.
  - destruct W as (a' & l' & D & G'). assert (V' : sequences s' = Some (els S0 a')) by (eapply good_views; eauto). splits; try apply D.
    + refine (@reach_exn V throws pick hd box _ _ _ _ s lk nh (Index _ (length cs1, o)) s' R At _).
      cbn [exec]. unfold bind. now rewrite E.
    + exists l'. rewrite (ad_els D) in V'. splits; auto; [apply D|]. exists (set_nth (length cs1) l' (els S0 a)).
      split; auto. now apply set_nth_at.
Qed.
Lemma run_of_index o s : run_index throws pick hd all (length cs1, o) s = of_index (irun throws pick hd this sup o) s.
Proof. exact (at_up throws pick hd (mem_world V) (this :: cs2) cs1 o s). Qed.
Lemma of_index_eq A (m : M (St (layer_of throws pick hd this sup)) A) s : of_index m s =
  match m (this_of s) with
  | Ret r t => Ret r (putd throws pick hd (mem_world V) (this :: cs2) cs1 s t)
  | Exn t => Exn (putd throws pick hd (mem_world V) (this :: cs2) cs1 s t)
  | UB => UB
  end.
Proof. exact (@up_eq V throws pick hd (mem_world V) (this :: cs2) A m cs1 s). Qed.
(** a query *)
Lemma of_index_ro A (m : M (St (layer_of throws pick hd this sup)) A) s r : m (this_of s) = Ret r (this_of s) -> of_index m s = Ret r s.
Proof.
  intros E. rewrite of_index_eq. unfold all in *. rewrite E. f_equal. exact (putd_self throws pick hd (mem_world V) (this :: cs2) cs1 s).
Qed.
Lemma this_of_put s t : this_of (putd throws pick hd (mem_world V) (this :: cs2) cs1 s t) = t.
Proof. exact (down_putd throws pick hd (mem_world V) (this :: cs2) cs1 s t). Qed.

Lemma index_run A (m : M (St (layer_of throws pick hd this sup)) A) s :
  match of_index m s with
  | Ret r s' => m (this_of s) = Ret r (this_of s')
  | Exn s' => m (this_of s) = Exn (this_of s')
  | UB => m (this_of s) = UB
  end.
Proof.
  assert (E := of_index_eq m s). destruct (m (this_of s)) as [r t|t|]; rewrite E; auto; now rewrite this_of_put.
Qed.
Lemma calls_this s : calls s = tk (bget (layer_of throws pick hd this sup) (this_of s)).
Proof. exact (f_equal (@tk V) (eq_sym (down_bget throws pick hd (mem_world V) (this :: cs2) cs1 s))). Qed.
Lemma memory_this s : memory s = mem (bget (layer_of throws pick hd this sup) (this_of s)).
Proof. exact (f_equal (@mem V) (eq_sym (down_bget throws pick hd (mem_world V) (this :: cs2) cs1 s))). Qed.

(** ** insertion *)
Theorem insert_effect s lk nh ls l v : reachable s lk nh -> sequences s = Some ls -> nth_error ls (length cs1) = Some l ->
  match c_insert box v None s with
  | Ret (x, true) s' => reachable s' (x :: lk) nh /\ memory s' = (x, Some v) :: memory s /\ ~ In x (map fst (memory s)) /\
      exists l', holds s' l' /\ placed hd this (value_of s') None x l l'
  | Ret (x, false) s' => reachable s' lk nh /\ memory s' = memory s /\ In x lk /\ conflict all v (value_of s x) /\
      exists l', holds s' l' /\ untouched this (value_of s) l l'
  | Exn s' => reachable s' lk nh /\ memory s' = memory s /\ blown throws (calls s) (calls s') /\
      exists l', holds s' l' /\ untouched this (value_of s) l l'
  | UB => False
  end.
Proof.
  intros R Sq Nt. assert (W := C01_C02_insert dv St_ v None R Sq I).
  assert (RR := @reach_ret V throws pick hd box _ (@run_index V throws pick hd all) (@can_index V throws pick hd all) (fun s => exists n, s = start throws pick hd all n) s lk nh (Insert _ v None)).
  assert (RE := @reach_exn V throws pick hd box _ (@run_index V throws pick hd all) (@can_index V throws pick hd all) (fun s => exists n, s = start throws pick hd all n) s lk nh (Insert _ v None)).
  destruct (c_insert box v None s) as [(x, [|]) s'|s'|] eqn:E; [| | |exact W].
  - destruct W as (Nw & M & (_ & _ & _ & _ & Ea)). splits; auto.
    + refine (RR (Pair x true) s' R I _). cbn [exec]. unfold bind. now rewrite E.
    + exact (each_this s' Ea Nt).
  - destruct W as (Ix & Cf & (M & _ & Ea)). splits; auto.
    + refine (RR (Pair x false) s' R I _). cbn [exec]. unfold bind. now rewrite E.
    + exact (each_this s' Ea Nt).
  - destruct W as (B & (M & _ & Ea)). splits; auto.
    + refine (RE s' R I _). cbn [exec]. unfold bind. now rewrite E.
    + exact (each_this s' Ea Nt).
Qed.

(** ** erasure *)
Definition drop (ds l : list node) : list node := filter (fun x => negb (existsb (Nat.eqb x) ds)) l.
Lemma remove_filter x l : remove Nat.eq_dec x l = drop [x] l.
Proof.
  induction l as [|y l IH]; cbn; auto. destruct (Nat.eq_dec x y) as [->|N].
  - now rewrite Nat.eqb_refl.
  - destruct (Nat.eqb_spec y x); [congruence|]. cbn. now rewrite IH.
Qed.
Lemma drop_nil l : drop [] l = l.
Proof. unfold drop. induction l as [|y l IH]; cbn in *; auto. now rewrite IH. Qed.
Lemma drop_drop a b l : drop a (drop b l) = drop (b ++ a) l.
Proof.
  unfold drop. unfold node in *. induction l as [|y l IH]; cbn; auto. rewrite existsb_app.
  destruct (existsb (Nat.eqb y) b); cbn; auto. destruct (existsb (Nat.eqb y) a); cbn; auto. f_equal. exact IH.
Qed.
Lemma drop_ext a b l : (forall x, In x a <-> In x b) -> drop a l = drop b l.
Proof.
  intros H. apply filter_ext. intros x. f_equal. apply Bool.eq_iff_eq_true. rewrite !existsb_exists.
  split; intros (y & I & E); exists y; split; auto; now apply H.
Qed.
Lemma drop_app a l l' : drop a (l ++ l') = drop a l ++ drop a l'.
Proof. apply filter_app. Qed.
Lemma drop_none a l : (forall x, In x l -> ~ In x a) -> drop a l = l.
Proof.
  induction l as [|y l IH]; cbn; intros H; auto. destruct (existsb (Nat.eqb y) a) eqn:E.
  - apply existsb_exists in E as (z & I & Ez). apply Nat.eqb_eq in Ez. subst z. exfalso. apply (H y); auto.
  - cbn. f_equal. apply IH. intros x I. apply H. auto.
Qed.
Lemma drop_all a l : (forall x, In x l -> In x a) -> drop a l = [].
Proof.
  induction l as [|y l IH]; cbn; intros H; auto. assert (E : existsb (Nat.eqb y) a = true).
  { apply existsb_exists. exists y. split; [apply H; auto|apply Nat.eqb_refl]. }
  rewrite E. cbn. apply IH. auto.
Qed.
(** the elements [ds] have been removed and destroyed *)
Definition gone s s' ls (ds : list node) : Prop :=
  (forall x, In x ds -> look (memory s') x = None) /\ (forall x, ~ In x ds -> look (memory s') x = look (memory s) x) /\
  sequences s' = Some (map (drop ds) ls) /\ calls s' = calls s.
Lemma gone_nil s ls : sequences s = Some ls -> gone s s ls [].
Proof. intros E. unfold gone. splits; auto; [easy|]. rewrite E. f_equal. symmetry. erewrite map_ext; [apply map_id|]. apply drop_nil. Qed.
Lemma gone_trans s s1 s' ls a b : gone s s1 ls a -> gone s1 s' (map (drop a) ls) b -> gone s s' ls (a ++ b).
Proof.
  intros (A1 & A2 & A3 & A4) (B1 & B2 & B3 & B4). unfold gone. splits; try congruence.
  - intros x I. destruct (in_dec Nat.eq_dec x b) as [J|J]; [auto|]. rewrite B2 by auto. apply in_app_iff in I as [I|I]; [auto|easy].
  - intros x N. rewrite in_app_iff in N. rewrite B2, A2; auto.
  - rewrite B3, map_map. f_equal. apply map_ext. intros l. apply drop_drop.
Qed.
Lemma gone_ext s s' ls a b : (forall x, In x a <-> In x b) -> gone s s' ls a -> gone s s' ls b.
Proof.
  intros H (A1 & A2 & A3 & A4). unfold gone. splits; auto.
  - intros x I. now apply A1, H.
  - intros x N. apply A2. now rewrite H.
  - rewrite A3. f_equal. apply map_ext. intros l. now apply drop_ext.
Qed.
Theorem erase_effect s lk nh ls x : reachable s lk nh -> sequences s = Some ls -> In x lk ->
  match c_erase box x s with
  | Ret _ s' => reachable s' (remove Nat.eq_dec x lk) nh /\ gone s s' ls [x]
  | _ => False
  end.
Proof.
  intros R Sq Ix. assert (W := C05_erase dv St_ x R Sq Ix). destruct (c_erase box x s) as [u s'|s'|] eqn:Ex; auto.
  destruct W as (Cl & M & _ & Sq'). split.
  - refine (@reach_ret V throws pick hd box _ _ _ _ s lk nh (Erase _ _ x) Nothing s' R Ix _).
    cbn [exec]. unfold bind. now rewrite Ex.
  - unfold gone. rewrite M. splits; auto.
    + intros y [<-|[]]. rewrite look_mdel. now rewrite Nat.eqb_refl.
    + intros y N. rewrite look_mdel. destruct (Nat.eqb_spec y x) as [->|]; auto. exfalso. apply N. now left.
    + rewrite Sq'. f_equal. apply map_ext. intros l. apply remove_filter.
Qed.
Lemma gone_this s s' ls l ds : nth_error ls (length cs1) = Some l -> gone s s' ls ds -> holds s' (drop ds l).
Proof. intros Nt (_ & _ & Sq & _). exists (map (drop ds) ls). split; auto. erewrite map_nth_error; [|exact Nt]. reflexivity. Qed.
Lemma gone_value s s' ls ds x : gone s s' ls ds -> ~ In x ds -> value_of s' x = value_of s x.
Proof.
  intros (_ & A & _) N. unfold Client.value_of, val. apply A in N. unfold Client.memory in N. now rewrite N.
Qed.
End Focus.
