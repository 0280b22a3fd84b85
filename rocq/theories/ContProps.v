(** C01-C09, C48, C50: what operations do to all the indices of a container. *)
From Verif Require Import Prelude Layer LayerBase OrdSpec Stack View Container ContOk Iops History ContSpec Client ContEx.
Set Implicit Arguments.

Section Props.
Variable V : Type.
Variable throws : nat -> bool.
Variable pick : list node -> node.
Variable dv : V.
Variable hd : node.
Variable cs : list (code V).

Notation box := (box throws pick hd cs).
Notation sequences := (@sequences V throws pick hd cs).
Notation count := (@count V throws pick hd cs).
Notation value_of := (@value_of V throws pick dv hd cs).
Notation memory := (@memory V throws pick hd cs).
Notation calls := (@calls V throws pick hd cs).
Notation reachable := (@reachable V throws pick hd cs).
Notation no_effect := (@no_effect V throws pick dv hd cs).
Notation sane := (@sane V throws pick dv hd cs).
Notation setting := (setting pick hd cs).
Implicit Types (s : St box) (lk nh : list node) (ls : list (list node)).

(** [x] has become an element, with value [v]: nobody else's value is in conflict with it,
    and it is in its place in the sequence of every index *)
Definition linked s s' lk ls (hint : option node) (x : node) (v : V) : Prop :=
  value_of s' x = v /\ (forall y, In y lk -> value_of s' y = value_of s y) /\
  count s' = S (count s) /\
  (forall y, In y lk -> ~ conflict cs v (value_of s y)) /\
  exists ls', sequences s' = Some ls' /\ each (fun c => placed hd c (value_of s') hint x) cs ls ls'.
(** [x] has been removed and destroyed *)
Definition erased s s' ls (x : node) : Prop :=
  memory s' = mdel (memory s) x /\ S (count s') = count s /\ sequences s' = Some (map (remove Nat.eq_dec x) ls).
(** the value of [x] is now [v] and [x] is in its place *)
Definition changed s s' lk ls (x : node) (v : V) : Prop :=
  memory s' = mset (memory s) x (Some v) /\ count s' = count s /\
  (forall y, In y lk -> y <> x -> ~ conflict cs v (value_of s y)) /\
  exists ls', sequences s' = Some ls' /\ each (fun c => moved hd c (value_of s') x) cs ls ls'.

Notation S0 := (spec hd (fun _ (_ : unit) => False) (fun _ a => a) cs).
Notation rep0 := (srep throws pick hd (mem_world V) (fun _ (_ : unit) => True) (fun _ _ => False) (fun _ a => a) cs).
Notation good := (@ContOk.good V dv hd box S0 rep0).

Hypothesis St_ : setting.
Notation O := (box_ok throws dv St_).

Lemma linked_of s s' a lk nh nh' var hint x v : good s a lk nh ->
  @added V dv hd box S0 rep0 s s' a lk nh' var hint x v -> linked s s' lk (els S0 a) hint x v.
Proof.
  intros G (A1 & A2 & A3 & a' & G' & I). unfold linked. splits; auto.
  - transitivity (length (x :: lk)); [apply (g_cnt G')|]. cbn. f_equal. symmetry. apply (g_cnt G).
  - intros y Iy C. apply (A3 y Iy). now apply to_clash.
  - exists (els S0 a'). split; [eapply good_views; eauto|]. eapply to_placed; [apply St_| |exact I].
    eapply (o_ext O); [exact (g_ok G)|]. intros y l Il Iy. symmetry. apply A2.
    assert (P := i_perm (g_inv G)). rewrite Forall_forall in P. exact (Permutation_in y (P l Il) Iy).
Qed.
Lemma erased_of s s' a lk nh x : good s a lk nh -> In x lk -> memory s' = mdel (memory s) x ->
  good s' (arem S0 x a) (remove Nat.eq_dec x lk) nh -> erased s s' (els S0 a) x.
Proof.
  intros G I M G'. unfold erased. splits; auto.
  - transitivity (S (length (remove Nat.eq_dec x lk))); [f_equal; apply (g_cnt G')|].
    transitivity (length lk); [|symmetry; apply (g_cnt G)].
    rewrite (Permutation_length (rem_perm x (Layer.i_nd (g_inv G)) I)). reflexivity.
  - transitivity (Some (els S0 (arem S0 x a))); [eapply good_views; eauto|]. f_equal. apply (o_elrem O _ _ x (g_rep G)).
Qed.
Lemma changed_of s s' a a' lk nh x v : good s a lk nh -> good s' a' lk nh ->
  memory s' = mset (memory s) x (Some v) -> (forall y, In y lk -> y <> x -> ~ aconf S0 v (value_of s y)) ->
  amov S0 (value_of s') x a a' -> changed s s' lk (els S0 a) x v.
Proof.
  intros G G' M N A. unfold changed. splits; auto.
  - transitivity (length lk); [apply (g_cnt G')|symmetry; apply (g_cnt G)].
  - intros y Iy Ny C. apply (N y Iy Ny). now apply to_clash.
  - exists (els S0 a'). split; [eapply good_views; eauto|]. apply to_moved; [apply St_|exact A].
Qed.

Lemma remain s s' a lk nh : good s a lk nh -> good s' a lk nh -> memory s' = memory s ->
  sequences s' = Some (els S0 a) /\ count s' = count s.
Proof.
  intros G G' M. split; [eapply good_views; eauto|].
  transitivity (length lk); [apply (g_cnt G')|symmetry; apply (g_cnt G)].
Qed.

Lemma mset_id (m : list (node * option V)) x o : NoDup (map fst m) -> look m x = Some o -> mset m x o = m.
Proof.
  induction m as [|(y, o') m IH]; cbn; auto. intros N E. apply NoDup_cons_iff in N as (N & N').
  destruct (Nat.eqb_spec x y) as [->|Ne].
  - injection E as ->. f_equal. fold (mset m y o). now apply mset_notin.
  - f_equal. now apply IH.
Qed.
Lemma good_keys s a lk nh : good s a lk nh -> NoDup (map fst (mem (bget box s))).
Proof. intros G. apply (NoDup_cons_iff null), (i_mem (g_inv G)). Qed.

(** C01, C02 *)
Theorem C01_C02_insert s lk nh ls v hint :
  reachable s lk nh -> sequences s = Some ls -> hint_ok hd hint lk ->
  match c_insert box v hint s with
  | Ret (x, true) s' =>
      ~ In x (map fst (memory s)) /\ memory s' = (x, Some v) :: memory s /\ linked s s' lk ls hint x v
  | Ret (x, false) s' => In x lk /\ conflict cs v (value_of s x) /\ no_effect s s' ls
  | Exn s' => blown throws (calls s) (calls s') /\ no_effect s s' ls
  | UB => False
  end.
Proof.
  intros R Sq H. destruct (open dv St_ R Sq) as (a & G & -> & Lv).
  assert (W := insert_spec (s_pick St_) O v hint G H). unfold wp in W. destruct (c_insert box v hint s) as [(x, [|]) s'|s'|]; cbn in *; auto.
  - destruct W as (_ & N & M & A). splits; auto. eapply linked_of; eauto.
  - destruct W as (_ & I & C & K). splits; auto; [now apply to_clash in C|]. eapply kept_none; eauto.
  - destruct W as (B & K). split; auto. eapply kept_none; eauto.
Qed.
Theorem C01_C02_emplace s lk nh ls v hint :
  reachable s lk nh -> sequences s = Some ls -> hint_ok hd hint lk ->
  match c_emplace throws pick box v hint s with
  | Ret (x, true) s' =>
      ~ In x (map fst (memory s)) /\ memory s' = (x, Some v) :: memory s /\ linked s s' lk ls hint x v
  | Ret (x, false) s' => In x lk /\ conflict cs v (value_of s x) /\ no_effect s s' ls
  | Exn s' => blown throws (calls s) (calls s') /\ no_effect s s' ls
  | UB => False
  end.
Proof.
  intros R Sq H. destruct (open dv St_ R Sq) as (a & G & -> & Lv).
  assert (W := emplace_spec (s_pick St_) O v hint G H (fun x => spec_ready _ _ _ _ x a)).
  unfold wp in W. destruct (c_emplace throws pick box v hint s) as [(x, [|]) s'|s'|]; cbn in *; auto.
  - destruct W as (_ & N & M & A). splits; auto. eapply linked_of; eauto.
  - destruct W as (_ & I & C & K). splits; auto; [now apply to_clash in C|]. eapply kept_none; eauto.
  - destruct W as (B & K). split; auto. eapply kept_none; eauto.
Qed.

(** C03 *)
Theorem C03_consistent s lk nh : reachable s lk nh -> exists ls, sane s lk nh ls.
Proof. intros R. destruct (reachable_good dv St_ R) as ((a & G) & Lv). exists (els S0 a). eapply good_sane; eauto. Qed.
Theorem C03_defined s lk nh o : reachable s lk nh -> @allowed_box V throws pick hd cs s lk nh o ->
  @exec_box V throws pick hd cs o s <> UB.
Proof. intros R A. eapply (reachable_safe dv); eauto. Qed.

(** C04 *)
Theorem C04_unique s lk nh x y : reachable s lk nh -> In x lk -> In y lk -> x <> y ->
  ~ conflict cs (value_of s x) (value_of s y).
Proof.
  intros R Ix Iy N C. destruct (reachable_good dv St_ R) as ((a & G) & Lv). apply (to_clash hd (fun _ (_ : unit) => False) (fun _ a => a)) in C.
  assert (P := i_perm (g_inv G)). rewrite Forall_forall in P.
  revert C. refine (spec_noconf _ _ _ (s_codes St_) _ a (g_ok G) _ N).
  intros l Il. apply P in Il. split; eapply Permutation_in; [symmetry; exact Il|auto|symmetry; exact Il|auto].
Qed.

(** C05 *)
Theorem C05_erase s lk nh ls x : reachable s lk nh -> sequences s = Some ls -> In x lk ->
  match c_erase box x s with
  | Ret _ s' => calls s' = calls s /\ erased s s' ls x
  | _ => False
  end.
Proof.
  intros R Sq I. destruct (open dv St_ R Sq) as (a & G & -> & Lv).
  assert (W : wp (c_erase box x) (fun _ s' => calls s' = calls s /\ erased s s' (els S0 a) x) (fun _ => False) s).
  { eapply (erase_spec O); eauto. intros s' G' T M. split; auto. eapply erased_of; eauto. }
  unfold wp in W. destruct (c_erase box x s); auto.
Qed.
(** the same although the value of the element has been changed to [w] behind the container's back *)
Theorem C05_erase_altered s lk nh ls x w : reachable s lk nh -> sequences s = Some ls -> In x lk ->
  match c_erase box x (bset box (mkB (mset (memory s) x (Some w)) (calls s)) s) with
  | Ret _ s' => calls s' = calls s /\ erased s s' ls x
  | _ => False
  end.
Proof.
  intros R Sq I. destruct (open dv St_ R Sq) as (a & G & -> & Lv). set (s1 := bset box _ s).
  assert (D : odd dv hd box S0 rep0 s1 a lk nh x) by (eapply (odd_mod O); [apply (good_odd x G)|auto|reflexivity]).
  assert (B1 : bget box s1 = mkB (mset (memory s) x (Some w)) (calls s)) by apply (o_bb O).
  assert (W : wp (c_erase box x) (fun _ s' => calls s' = calls s /\ erased s s' (els S0 a) x) (fun _ => False) s1).
  { eapply (erase_odd O); eauto. intros s' G' T M. rewrite B1 in T, M. cbn - [mset mdel] in T, M. split; auto.
    eapply erased_of; eauto. rewrite mdel_mset in M. exact M. }
  unfold wp in W. destruct (c_erase box x s1); auto.
Qed.

(** C06 *)
Theorem C06_replace s lk nh ls v x : reachable s lk nh -> sequences s = Some ls -> In x lk ->
  match c_replace box v x s with
  | Ret true s' => changed s s' lk ls x v
  | Ret false s' =>
      (exists y, In y lk /\ y <> x /\ conflict cs v (value_of s y)) /\
      memory s' = memory s /\ sequences s' = Some ls /\ count s' = count s
  | Exn s' => blown throws (calls s) (calls s') /\
      memory s' = memory s /\ sequences s' = Some ls /\ count s' = count s
  | UB => False
  end.
Proof.
  intros R Sq I. destruct (open dv St_ R Sq) as (a & G & -> & Lv).
  assert (W := replace_spec O v x G I). unfold wp in W. destruct (c_replace box v x s) as [[|] s'|s'|]; auto.
  - destruct W as (_ & M & N & a' & G' & A). eapply changed_of; eauto.
  - destruct W as (_ & M & G' & y & Iy & Ny & C). split.
    + exists y. splits; auto. now apply to_clash in C.
    + split; auto. eapply remain; eauto.
  - destruct W as (B & M & G'). split; auto. split; auto. eapply remain; eauto.
Qed.

(** C07 *)
Theorem C07_modify s lk nh ls f fx x : reachable s lk nh -> sequences s = Some ls -> In x lk ->
  let v := f (value_of s x) in
  match c_modify throws box f fx x s with
  | Ret true s' => changed s s' lk ls x v
  | Ret false s' => (exists y, In y lk /\ y <> x /\ conflict cs v (value_of s y)) /\ erased s s' ls x
  | Exn s' => blown throws (calls s) (calls s') /\ erased s s' ls x
  | UB => False
  end.
Proof.
  intros R Sq I v. destruct (open dv St_ R Sq) as (a & G & -> & Lv).
  assert (W := modify_spec O f fx x G I). unfold wp in W. destruct (c_modify throws box f fx x s) as [[|] s'|s'|]; auto.
  - destruct W as (_ & M & N & a' & G' & A). eapply changed_of; eauto.
  - destruct W as (_ & (M & G') & y & Iy & Ny & C). split.
    + exists y. splits; auto. now apply to_clash in C.
    + eapply erased_of; eauto.
  - destruct W as (B & M & G'). split; auto. eapply erased_of; eauto.
Qed.

(** C08: no user call throws.  [back] need not restore the value for the container to remain in order. *)
Theorem C08_modify_rollback s lk nh ls f fx g gx x : reachable s lk nh -> sequences s = Some ls -> In x lk ->
  (forall i, calls s <= i -> throws i = false) ->
  let v := f (value_of s x) in
  let w := g v in
  match c_modify_rb throws box f fx g gx x s with
  | Ret true s' => changed s s' lk ls x v
  | Ret false s' =>
      (exists y, In y lk /\ y <> x /\ conflict cs v (value_of s y)) /\
      (w = value_of s x -> memory s' = memory s /\ sequences s' = Some ls /\ count s' = count s) /\
      let after y := if y =? x then w else value_of s y in
      let stays := memory s' = mset (memory s) x (Some w) /\ sequences s' = Some ls /\ count s' = count s in
      (Forall2 (fun c l => keeps c (value_of s) after l) cs ls -> stays) /\
      (~ Forall2 (fun c l => legal c after l) cs ls -> erased s s' ls x) /\
      (stays \/ erased s s' ls x)
  | _ => False
  end.
Proof.
  intros R Sq I T v w. destruct (open dv St_ R Sq) as (a & G & -> & Lv).
  assert (W := modify_rb_spec O f fx g gx x G I (or_intror T)). unfold wp in W.
  destruct (c_modify_rb throws box f fx g gx x s) as [[|] s'|s'|]; auto.
  - destruct W as (_ & M & N & a' & G' & A). eapply changed_of; eauto.
  - destruct W as (_ & (y & Iy & Ny & C) & W). split; [|split; [|split; [|split]]].
    + exists y. splits; auto. now apply to_clash in C.
    + intros E. destruct W as [(F & M & G')|(F & _)].
      * change (g (f (val dv (bget box s) x))) with w in M. rewrite E in M. assert (M' : memory s' = memory s).
        { exact (eq_trans M (mset_id _ _ (good_keys G) (good_val x G I))). }
        split; auto. eapply remain; eauto.
      * exfalso. apply F. change (g (f (val dv (bget box s) x))) with w. rewrite E. now apply (fits_same O) with (lk := lk) (out := nh).
    + intros K. destruct W as [(F & M & G')|(F & _)].
      * split; auto. split; [eapply good_views; eauto|].
        transitivity (length lk); [apply (g_cnt G')|symmetry; apply (g_cnt G)].
      * exfalso. apply F. eapply of_keeps; [apply St_|exact (g_ok G)|exact K].
    + intros K. destruct W as [(F & M & G')|(F & M & G')]; [|eapply erased_of; eauto].
      exfalso. apply K. apply to_legal in F; [exact F|apply St_].
    + destruct W as [(F & M & G')|(F & M & G')]; [left|right; eapply erased_of; eauto].
      splits; auto; [eapply good_views; eauto|]. transitivity (length lk); [apply (g_cnt G')|symmetry; apply (g_cnt G)].
  - destruct W as (_ & (i & Hi & Ti) & _). rewrite T in Ti; [easy|apply Hi].
Qed.
(** C09: what is true when user calls throw: the container is in order, but the element is
    lost, even if [back] restored its value ([C09_refuted] below). *)
Theorem C09_modify_rollback_partial s lk nh ls f fx g gx x : reachable s lk nh -> sequences s = Some ls -> In x lk ->
  (forall v, g (f v) = v) ->
  let v := f (value_of s x) in
  match c_modify_rb throws box f fx g gx x s with
  | Ret true s' => changed s s' lk ls x v
  | Ret false s' =>
      (exists y, In y lk /\ y <> x /\ conflict cs v (value_of s y)) /\
      memory s' = memory s /\ sequences s' = Some ls /\ count s' = count s
  | Exn s' => (exists i, calls s <= i < calls s' /\ throws i = true) /\ erased s s' ls x
  | UB => False
  end.
Proof.
  intros R Sq I T v. destruct (open dv St_ R Sq) as (a & G & -> & Lv).
  assert (F0 : fits dv box S0 s a x (g (f (val dv (bget box s) x)))).
  { rewrite T. now apply (fits_same O) with (lk := lk) (out := nh). }
  assert (W := modify_rb_spec O f fx g gx x G I (or_introl F0)). unfold wp in W.
  destruct (c_modify_rb throws box f fx g gx x s) as [[|] s'|s'|]; auto.
  - destruct W as (_ & M & N & a' & G' & A). eapply changed_of; eauto.
  - destruct W as (_ & (y & Iy & Ny & C) & W). split.
    + exists y. splits; auto. now apply to_clash in C.
    + destruct W as [(F & M & G')|(F & _)]; [|easy]. rewrite T in M.
      assert (M' : memory s' = memory s). { exact (eq_trans M (mset_id _ _ (good_keys G) (good_val x G I))). }
      split; auto. eapply remain; eauto.
  - destruct W as (_ & B & M & G'). split; auto. eapply erased_of; eauto.
Qed.

(** C48 *)
Theorem C48_extract s lk nh ls x : reachable s lk nh -> sequences s = Some ls -> In x lk ->
  match c_extract box x s with
  | Ret h s' => h = Some x /\ memory s' = memory s /\ calls s' = calls s /\ S (count s') = count s /\
      sequences s' = Some (map (remove Nat.eq_dec x) ls)
  | _ => False
  end.
Proof.
  intros R Sq I. destruct (open dv St_ R Sq) as (a & G & -> & Lv).
  assert (W := extract_spec O x G I). unfold wp in W. destruct (c_extract box x s) as [h s'|s'|]; auto.
  destruct W as (-> & B & G'). splits; auto.
  - unfold Client.memory. now rewrite B.
  - unfold Client.calls. now rewrite B.
  - transitivity (S (length (remove Nat.eq_dec x lk))); [f_equal; apply (g_cnt G')|].
    transitivity (length lk); [|symmetry; apply (g_cnt G)].
    rewrite (Permutation_length (rem_perm x (Layer.i_nd (g_inv G)) I)). reflexivity.
  - transitivity (Some (els S0 (arem S0 x a))); [eapply good_views; eauto|]. f_equal. apply (o_elrem O _ _ x (g_rep G)).
Qed.
(** [h] is what the handle owns afterwards *)
Theorem C48_insert_handle s lk nh ls x hint : reachable s lk nh -> sequences s = Some ls -> In x nh ->
  hint_ok hd hint lk ->
  match c_insert_nh hd box (Some x) hint s with
  | Ret (y, true, h) s' => y = x /\ h = None /\ memory s' = memory s /\ linked s s' lk ls hint x (value_of s x)
  | Ret (y, false, h) s' => h = Some x /\ In y lk /\ conflict cs (value_of s x) (value_of s y) /\ no_effect s s' ls
  | Exn s' => blown throws (calls s) (calls s') /\ no_effect s s' ls
  | UB => False
  end.
Proof.
  intros R Sq I H. destruct (open dv St_ R Sq) as (a & G & -> & Lv).
  assert (Nn : NoDup nh).
  { assert (N := good_nodup G). rewrite !NoDup_cons_iff, NoDup_app_iff in N. tauto. }
  assert (P := rem_perm x Nn I).
  assert (G1 : good s a lk (x :: remove Nat.eq_dec x nh)) by (eapply good_perm; eauto).
  assert (W := insert_nh_spec (s_pick St_) O hint G1 (Lv x I) H (spec_ready _ _ _ _ x a)).
  unfold wp in W. destruct (c_insert_nh hd box (Some x) hint s) as [((y, [|]), h) s'|s'|]; auto.
  - destruct W as (_ & M & -> & -> & A). splits; auto. eapply linked_of; eauto.
  - destruct W as (_ & _ & -> & Iy & C & K). splits; auto; [now apply to_clash in C|]. exact (kept_none throws St_ G1 K).
  - destruct W as (B & K). split; auto. exact (kept_none throws St_ G1 K).
Qed.
Theorem C48_empty_handle s hint : c_insert_nh hd box None hint s = Ret (hd, false, None) s.
Proof. reflexivity. Qed.
Theorem C48_drop_handle s lk nh ls x : reachable s lk nh -> sequences s = Some ls -> In x nh ->
  match nh_destroy box (Some x) s with
  | Ret _ s' => memory s' = mdel (memory s) x /\ calls s' = calls s /\ count s' = count s /\ sequences s' = Some ls
  | _ => False
  end.
Proof.
  intros R Sq I. destruct (open dv St_ R Sq) as (a & G & -> & Lv).
  assert (Nn : NoDup nh).
  { assert (N := good_nodup G). rewrite !NoDup_cons_iff, NoDup_app_iff in N. tauto. }
  assert (G1 := good_perm (rem_perm x Nn I) G).
  assert (W : wp (nh_destroy box (Some x)) (fun _ s' => memory s' = mdel (memory s) x /\ calls s' = calls s /\
    count s' = count s /\ sequences s' = Some (els S0 a)) (fun _ => False) s).
  { cbn [nh_destroy]. eapply wp_delete; [apply (live_val dv (Lv _ I))|].
    assert (B : bget box (bset box (mkB (mdel (memory s) x) (calls s)) s) = mkB (mdel (memory s) x) (calls s)) by apply (o_bb O).
    unfold Client.memory, Client.calls in *. splits.
    - rewrite B. reflexivity.
    - rewrite B. reflexivity.
    - apply (o_cb O).
    - eapply good_views with (dv := dv) (lk := lk). eapply good_del; eauto; [exact O|..].
      + apply (o_repb O), G.
      + apply (o_cb O).
      + now rewrite (o_bb O). }
  unfold wp in W. destruct (nh_destroy box (Some x) s); auto.
Qed.

(** C50 *)
Theorem C50_clear s lk nh ls : reachable s lk nh -> sequences s = Some ls ->
  match c_clear box s with
  | Ret _ s' => calls s' = calls s /\ count s' = 0 /\ sequences s' = Some (map (fun _ => []) cs) /\
      memory s' = filter (fun p => negb (existsb (Nat.eqb (fst p)) lk)) (memory s)
  | _ => False
  end.
Proof.
  intros R Sq. destruct (open dv St_ R Sq) as (a & G & -> & Lv).
  assert (W := clear_spec O (has_index St_) G). unfold wp in W. destruct (c_clear box s) as [u s'|s'|]; auto.
  destruct W as (T & M & a' & G' & F). splits; auto.
  - apply (g_cnt G').
  - transitivity (Some (els S0 a')); [eapply good_views; eauto|]. f_equal.
    assert (E := spec_len hd (fun _ (_ : unit) => False) (fun _ a => a) cs a'). revert E F. generalize (els S0 a').
    generalize cs. clear. intros l. induction l as [|c l IH]; intros [|x r] E F; try discriminate; auto. cbn.
    inversion F; subst. f_equal. apply IH; auto.
Qed.
Theorem C50_destroy s lk nh ls : reachable s lk nh -> sequences s = Some ls ->
  match c_destroy hd box s with
  | Ret _ s' => calls s' = calls s /\ Permutation (map fst (memory s')) nh /\
      memory s' = filter (fun p => negb (existsb (Nat.eqb (fst p)) (lk ++ [hd]))) (memory s)
  | _ => False
  end.
Proof.
  intros R Sq. destruct (open dv St_ R Sq) as (a & G & -> & Lv).
  assert (W := destroy_spec O (has_index St_) G). unfold wp in W. destruct (c_destroy hd box s) as [u s'|s'|]; auto.
  destruct W as (T & M & P). splits; auto.
Qed.
End Props.

(** ** instances *)
Notation some_seqs := [[4; 2; 5; 3]; [2; 3; 4; 5]; [4; 2; 5; 3]; [2; 3; 4; 5]].
Example some_hyp : setting next_node 1 four /\ reachable at23 next_node 1 four some_state [5; 4; 3; 2] [] /\
  sequences at23 next_node 1 four some_state = Some some_seqs /\ hint_ok 1 (Some 3) [5; 4; 3; 2].
Proof.
  split; [exact four_ok|]. split; [exact some_reach|]. split; [exact some_sequences|]. cbn. auto.
Qed.
(** an insertion which succeeds, one in conflict with the element 5, one which throws *)
Example some_insertions :
  seen (c_insert some_box 9 None (start at23 next_node 1 four 0)) = (0, Some [[2]; [2]; [2]; [2]]) /\
  seen (c_insert some_box 7 (Some 4) some_state) = (0, Some some_seqs) /\
  seen (c_insert some_box 9 None some_state) = (1, Some some_seqs).
Proof. vm_compute. auto. Qed.
(** with hashed indices: 11 takes the place of 8; 8 is refused as a second 8; an insertion is given up
    as a call throws, but one of the indices has been rehashed *)
Example hash_hyp : setting next_node 1 three /\ reachable at60 next_node 1 three hash_state [6; 5; 4; 3; 2] [] /\
  hash_seqs hash_state = Some [[6; 3; 5; 2; 4]; [4; 2; 5; 3; 6]; [2; 3; 4; 5; 6]].
Proof. split; [exact three_ok|]. split; [exact hash_reach|exact hash_sequences]. Qed.
Example hash_operations :
  hash_seen (c_replace hash_box 11 3 hash_state) = (0, Some [[6; 5; 2; 4; 3]; [4; 2; 5; 6; 3]; [2; 4; 5; 6; 3]]) /\
  hash_seen (c_replace hash_box 8 5 hash_state) = (0, hash_seqs hash_state) /\
  hash_seen (c_insert hash_box 4 None hash_state) = (1, Some [[4; 5; 2; 6; 3]; [4; 2; 5; 3; 6]; [2; 3; 4; 5; 6]]).
Proof. vm_compute. auto. Qed.
Print Assumptions C01_C02_insert.
Print Assumptions C01_C02_emplace.
(** [no_effect] cannot be strengthened to equal sequences in the presence of hashed indices: buckets are
    reserved before anything else. *)
Theorem C02_same_sequences_refuted : exists s lk ls v,
  setting next_node 1 three /\ reachable at60 next_node 1 three s lk [] /\ hash_seqs s = Some ls /\
  match c_insert hash_box v None s with Exn s' => hash_seqs s' <> Some ls | _ => False end.
Proof.
  exists hash_state, [6; 5; 4; 3; 2], [[6; 3; 5; 2; 4]; [4; 2; 5; 3; 6]; [2; 3; 4; 5; 6]], 4.
  splits; [exact three_ok|exact hash_reach|exact hash_sequences|]. vm_compute. discriminate.
Qed.
Print Assumptions C02_same_sequences_refuted.
Print Assumptions C03_consistent.
Print Assumptions C03_defined.
Print Assumptions C04_unique.
Print Assumptions C05_erase.
Print Assumptions C05_erase_altered.
Print Assumptions C06_replace.
Example some_replaces :
  seen (c_replace some_box 100 5 some_state) = (1, Some some_seqs) /\
  seen (c_replace some_box 8 5 some_state) = (0, Some some_seqs).
Proof. vm_compute. auto. Qed.
Print Assumptions C07_modify.
Example some_modifications :
  seen (c_modify at23 some_box (fun _ => 100) (fun _ => 0) 5 some_state) =
    (1, Some [[4; 2; 3]; [2; 3; 4]; [4; 2; 3]; [2; 3; 4]]).
Proof. vm_compute. auto. Qed.
Print Assumptions C08_modify_rollback.
Print Assumptions C09_modify_rollback_partial.

(** C09 is false: the only exception is thrown by the comparison made by call number 23
    (the modifier is call number 18), [back] restores the value, and the element is erased nevertheless. *)
Theorem C09_refuted : exists s lk ls f g x,
  setting next_node 1 four /\ reachable at23 next_node 1 four s lk [] /\
  sequences at23 next_node 1 four s = Some ls /\ In x lk /\ (forall v, g (f v) = v) /\ calls at23 next_node 1 four s = 18 /\
  match c_modify_rb at23 some_box f f g g x s with
  | Exn s' => calls at23 next_node 1 four s' = 29 /\ look (memory at23 next_node 1 four s') x = None /\
      sequences at23 next_node 1 four s' = Some (map (remove Nat.eq_dec x) ls)
  | _ => False
  end.
Proof.
  exists some_state, [5; 4; 3; 2], some_seqs, (fun v => v + 10), (fun v => v - 10), 2.
  splits; [exact four_ok|exact some_reach|exact some_sequences|cbn; auto|intros; lia|exact some_calls|].
  vm_compute. auto.
Qed.
Print Assumptions C09_refuted.
(** Worse: if [back] does not restore the value, the element is erased twice. *)
Theorem C09_double_erase_refuted : exists s lk ls f g x,
  setting next_node 1 four /\ reachable at23 next_node 1 four s lk [] /\
  sequences at23 next_node 1 four s = Some ls /\ In x lk /\ c_modify_rb at23 some_box f f g g x s = UB.
Proof.
  exists some_state, [5; 4; 3; 2], some_seqs, (fun v => v + 10), (fun v => v + 10), 2.
  splits; [exact four_ok|exact some_reach|exact some_sequences|cbn; auto|]. vm_compute. auto.
Qed.
Print Assumptions C09_double_erase_refuted.
Print Assumptions C48_extract.
Print Assumptions C48_insert_handle.
Print Assumptions C48_drop_handle.
(** with the element 5 extracted *)
Definition handle_ops := [Extract nat (nat * iop nat) 5].
Example handle_hyp : exists s, reachable at23 next_node 1 four s [4; 3; 2] [5] /\
  sequences at23 next_node 1 four s = Some [[4; 2; 3]; [2; 3; 4]; [4; 2; 3]; [2; 3; 4]] /\
  seen (c_insert_nh 1 some_box (Some 5) None s) = (0, Some some_seqs).
Proof.
  exists (fst (play at23 next_node 1 four handle_ops some_state [5; 4; 3; 2] [])). split.
  - assert (P : playable at23 next_node 1 four handle_ops some_state [5; 4; 3; 2] []) by (vm_compute; auto).
    apply play_reach in P; [|exact some_reach]. vm_compute in P |- *. exact P.
  - vm_compute. auto.
Qed.
Print Assumptions C50_clear.
Print Assumptions C50_destroy.
