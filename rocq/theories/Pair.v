(** Two containers sharing a memory, and moving elements from one to the other. *)
From Verif Require Import Prelude Layer LayerBase Stack View Container ContOk Iops History ContSpec Client Transfer Conv.
Set Implicit Arguments.

(** ** from one container to the other *)
Section Move.
Variable V : Type.
Variable throws : nat -> bool.
Variable pick : list node -> node.
Variable dv : V.
Variables (hs hd : node) (css csd : list (code V)).   (* source and destination *)
Notation boxs := (box throws pick hs css).
Notation boxd := (box throws pick hd csd).
Notation W := (container_world boxs).
Notation LJ := (stack throws pick hd W csd).

(** the destination as it is when the source takes part in an operation, and back *)
Definition join (p : St boxs * St boxd) : St LJ := conv throws pick hd (mem_world V) W csd (snd p) (fst p).
Definition src (t : St LJ) : St boxs := swld throws pick hd W csd t.
Definition dst (t : St LJ) : St boxd := conv throws pick hd W (mem_world V) csd t (bget LJ t).
Definition both_run {A} (m : M (St LJ) A) : M (St boxs * St boxd) A := lensM join (fun t _ => (src t, dst t)) m.

(** merge(x,i) of ordered and hashed indices, for different containers: final_transfer_;
    ord_index_impl.hpp:537-555, hashed_index.hpp:523-541 *)
Definition move_one (x : node) : M (St boxs * St boxd) (node * bool) := both_run (c_transfer LJ x).
(** merge(x,first,last): final_transfer_range_ with iterators of index number [i] of the source;
    ord_index_impl.hpp:565-583, hashed_index.hpp:550-567.  merge(x) is the case of x.begin(), x.end();
    ord_index_impl.hpp:526-531, hashed_index.hpp:512-517 *)
Definition move_range (i : nat) (first last : node) : M (St boxs * St boxd) unit :=
  fun p => both_run (c_transfer_range LJ (fun x => in_world throws pick hd W csd (next_at throws pick hs (mem_world V) css i x))
                      (Datatypes.S (cget boxs (fst p))) first last) p.

(** an operation of the source alone; the memory is common to both *)
Definition on_src {A} (m : M (St boxs) A) : M (St boxs * St boxd) A :=
  lensM fst (fun s p => (s, bset boxd (bget boxs s) (snd p))) m.
(** Operations: of the source alone, moving one element, moving a range of index number [i] *)
Inductive op1 := On (o : op V (nat * iop V)) | One (x : node) | Range (i : nat) (first last : node).
Definition run1 (o : op1) : M (St boxs * St boxd) res :=
  match o with
  | On o => on_src (@exec_box V throws pick hs css o)
  | One x => r <- move_one x ;; ret (Pair (fst r) (snd r))
  | Range i f l => move_range i f l ;;; ret Nothing
  end.
(** The client's ledger: elements [ls] of the source, [lk] of the destination, node handles [nh].  After moving a range
    it looks which elements have been moved. *)
Definition allowed1 (p : St boxs * St boxd) (ls lk nh : list node) (o : op1) : Prop :=
  match o with
  | On o => @allowed_box V throws pick hs css (fst p) ls nh o
  | One x => In x ls
  | Range i f l => exists sq l1 mid l2, @sequences V throws pick hs css (fst p) = Some sq /\ nth_error sq i = Some (l1 ++ mid ++ l2) /\
      f = List.hd hs (mid ++ l2) /\ l = List.hd hs l2
  end.
Definition elems (o : option (list (list node))) : list node := match o with Some (l :: _) => l | _ => [] end.
Definition ledger1 (o : op1) (r : option res) (p' : St boxs * St boxd) (ls lk nh : list node) : list node * list node * list node :=
  match o with
  | On o => (fst (ledger o r ls nh), lk, snd (ledger o r ls nh))
  | One x => match r with Some (Pair _ true) => (remove Nat.eq_dec x ls, x :: lk, nh) | _ => (ls, lk, nh) end
  | Range _ _ _ => (elems (@sequences V throws pick hs css (fst p')), elems (@sequences V throws pick hd csd (snd p')), nh)
  end.

(** ** proofs *)
Notation S0 h cs := (spec h (fun _ (_ : unit) => False) (fun _ a => a) cs).
Notation rep0 h cs := (srep throws pick h (mem_world V) (fun _ (_ : unit) => True) (fun _ _ => False) (fun _ a => a) cs).
Notation goods := (@ContOk.good V dv hs boxs (S0 hs css) (rep0 hs css)).
Notation goodd := (@ContOk.good V dv hd boxd (S0 hd csd) (rep0 hd csd)).
Hypothesis Ss_ : setting pick hs css.
Hypothesis Sd_ : setting pick hd csd.
Notation Ss := (S0 hs css).
Notation wrep := (fun s (a : AV Ss * nat) => rep0 hs css s (fst a) /\ cget boxs s = snd a).
Notation wready := (fun x (a : AV Ss * nat) =>
  Forall (fun l => NoDup l /\ In x l /\ length l <= Datatypes.S (snd a - 1)) (els Ss (fst a))).
Notation wrem := (fun x (a : AV Ss * nat) => (arem Ss x (fst a), snd a - 1)).
Notation SJ := (spec hd wready wrem csd).
Notation repJ := (srep throws pick hd W wrep wready wrem csd).
Notation both := (@Transfer.both V throws pick dv hs boxs Ss (rep0 hs css) hd csd).
Notation src_arr a := (fst (sworld hd wready wrem csd a)).
Notation vv p := (val dv (bget boxs (fst p))).

(** both containers in order: [lk] the elements of the destination, [ls] those of the source *)
Definition two (p : St boxs * St boxd) (a : AV Ss) (b : AV (S0 hd csd)) (ls lk nh : list node) : Prop :=
  bget boxs (fst p) = bget boxd (snd p) /\
  goods (fst p) a ls (hd :: lk ++ nh) /\ goodd (snd p) b lk (hs :: ls ++ nh).

Definition conj_ (a : AV Ss) (b : AV (S0 hd csd)) (n : nat) : AV SJ :=
  cona hd (fun _ (_ : unit) => False) (fun _ a => a) wready wrem csd b (a, n).
Definition dis (c : AV SJ) : AV (S0 hd csd) := cona hd wready wrem (fun _ (_ : unit) => False) (fun _ a => a) csd c tt.

Lemma join_both p a b ls lk nh : two p a b ls lk nh -> both (join p) (conj_ a b (length ls)) lk ls nh.
Proof.
  intros (E & Gs & Gd). destruct p as (s, d). cbn [fst snd] in *. split; [|split].
  - eapply conv_good; [exact Gd|..].
    + cbn. split; [apply Gs|apply Gs].
    + exact E.
  - unfold join, conj_. rewrite conv_wld, cona_wld. exact Gs.
  - unfold conj_. now rewrite cona_wld.
Qed.
Lemma both_two t c ls lk nh : both t c lk ls nh -> two (src t, dst t) (src_arr c) (dis c) ls lk nh.
Proof.
  intros (Gd & Gs & _). split; [|split]; cbn [fst snd].
  - unfold dst, box. rewrite conv_bget. cbn. symmetry. exact (wld_get throws pick hd W csd t).
  - exact Gs.
  - unfold dst, dis. eapply conv_good; [exact Gd|exact I|reflexivity].
Qed.
Lemma both_mem t : bget boxs (src t) = bget LJ t.
Proof. symmetry. exact (wld_get throws pick hd W csd t). Qed.
Lemma join_mem p : bget LJ (join p) = bget boxs (fst p).
Proof. unfold join. now rewrite conv_bget. Qed.
Lemma dis_els c : els (S0 hd csd) (dis c) = els SJ c.
Proof. apply cona_els. Qed.
Lemma conj_els a b n : els SJ (conj_ a b n) = els (S0 hd csd) b.
Proof. apply cona_els. Qed.
Lemma conj_src a b n : src_arr (conj_ a b n) = a.
Proof. unfold conj_. now rewrite cona_wld. Qed.

Lemma next_ok i t c lk ls nh l1 x l2 : i < length css -> both t c lk ls nh -> nth i (els Ss (src_arr c)) [] = l1 ++ x :: l2 ->
  in_world throws pick hd W csd (next_at throws pick hs (mem_world V) css i x) t = Ret (List.hd hs l2) t.
Proof.
  intros Li (_ & Gs & _) E. unfold in_world, lensM.
  assert (X : next_at throws pick hs (mem_world V) css i x (swld throws pick hd W csd t) = Ret (List.hd hs l2) (swld throws pick hd W csd t)).
  { eapply next_at_ok with (l := l1 ++ x :: l2); [exact (g_rep Gs)|..|reflexivity].
    - assert (P := i_perm (g_inv Gs)). eapply Forall_impl; [|exact P]. intros l Pl. cbv beta in Pl.
      rewrite (Permutation_length Pl). assert (Gc := g_cnt Gs). unfold box in Gc |- *. rewrite Gc. lia.
    - rewrite <- E. apply nth_error_nth'. rewrite spec_len. exact Li. }
  rewrite X. now rewrite conv_id.
Qed.

Notation mrg p := (merged (fun x y => conflict csd (vv p x) (vv p y)) (fun ls x => each (fun c => placed hd c (vv p) None x) csd ls)
                     (each (fun c => untouched c (vv p)) csd)).

(** one element *)
Theorem move_one_spec p a b ls lk nh x : two p a b ls lk nh -> In x ls ->
  wp (move_one x)
     (fun r p' => mem (bget boxs (fst p')) = mem (bget boxs (fst p)) /\
        quiet throws (tk (bget boxs (fst p))) (tk (bget boxs (fst p'))) /\
        if snd r then
          fst r = x /\ (forall y, In y lk -> ~ conflict csd (vv p x) (vv p y)) /\
          exists a' b', two p' a' b' (remove Nat.eq_dec x ls) (x :: lk) nh /\
            els Ss a' = map (remove Nat.eq_dec x) (els Ss a) /\
            each (fun c => placed hd c (vv p) None x) csd (els (S0 hd csd) b) (els (S0 hd csd) b')
        else
          In (fst r) lk /\ conflict csd (vv p x) (vv p (fst r)) /\
          exists a' b', two p' a' b' ls lk nh /\ els Ss a' = els Ss a /\
            each (fun c => untouched c (vv p)) csd (els (S0 hd csd) b) (els (S0 hd csd) b'))
     (fun p' => mem (bget boxs (fst p')) = mem (bget boxs (fst p)) /\
        blown throws (tk (bget boxs (fst p))) (tk (bget boxs (fst p'))) /\
        exists a' b', two p' a' b' ls lk nh /\ els Ss a' = els Ss a /\
            each (fun c => untouched c (vv p)) csd (els (S0 hd csd) b) (els (S0 hd csd) b')) p.
Proof.
  intros T I. assert (B := join_both T). unfold move_one, both_run. apply wp_lens.
  assert (Ok : aok SJ (vv p) (conj_ a b (length ls))).
  { destruct B as (G & _). rewrite <- join_mem. apply (g_ok G). }
  assert (Sm : forall c', asame SJ (vv p) (conj_ a b (length ls)) c' -> els Ss (src_arr c') = els Ss a /\
    each (fun c => untouched c (vv p)) csd (els (S0 hd csd) b) (els (S0 hd csd) (dis c'))).
  { intros c' A. rewrite (wld_same hd wready wrem csd _ _ _ A), conj_src. split; auto.
    rewrite dis_els, <- (conj_els a b (length ls)). apply to_untouched; auto. apply Sd_. }
  eapply wp_conseq; [eapply (@transfer_spec V throws pick dv (s_pick Sd_) hs boxs Ss (rep0 hs css) _ (box_ok throws dv Ss_) hd csd (s_codes Sd_)); [exact B|exact I]| |].
  - intros (r, k) t (M & Q & R). cbn [fst snd] in *. rewrite !both_mem. rewrite join_mem in *. splits; auto. destruct k.
    + destruct R as (-> & NC & c' & B' & A & Es). splits; auto.
      * intros y Iy C. apply (NC y Iy). now apply to_clash.
      * exists (src_arr c'), (dis c'). splits.
        -- now apply both_two.
        -- rewrite Es, conj_src. apply (o_elrem (box_ok throws dv Ss_) _ _ x (g_rep (proj1 (proj2 T)))).
        -- rewrite dis_els, <- (conj_els a b (length ls)). eapply to_placed; [apply Sd_|exact Ok|].
           assert (VE := vals_mem dv _ _ M). rewrite VE in A. exact A.
    + destruct R as (Ir & C & c' & B' & A). splits; auto; [now apply to_clash in C|].
      exists (src_arr c'), (dis c'). split; [now apply both_two|now apply Sm].
  - intros t (M & Q & c' & B' & A). cbn [fst snd]. rewrite !both_mem. rewrite join_mem in *. splits; auto.
    exists (src_arr c'), (dis c'). split; [now apply both_two|now apply Sm].
Qed.

(** a range of index number [i] of the source *)
Theorem move_range_spec p a b ls lk nh i l1 mid l2 : two p a b ls lk nh -> nth_error (els Ss a) i = Some (l1 ++ mid ++ l2) ->
  wp (move_range i (List.hd hs (mid ++ l2)) (List.hd hs l2))
     (fun _ p' => mem (bget boxs (fst p')) = mem (bget boxs (fst p)) /\
        quiet throws (tk (bget boxs (fst p))) (tk (bget boxs (fst p'))) /\
        exists a' b' moved, two p' a' b' (drop moved ls) (rev moved ++ lk) nh /\
            els Ss a' = map (drop moved) (els Ss a) /\
            mrg p lk (els (S0 hd csd) b) mid moved (els (S0 hd csd) b'))
     (fun p' => mem (bget boxs (fst p')) = mem (bget boxs (fst p)) /\
        blown throws (tk (bget boxs (fst p))) (tk (bget boxs (fst p'))) /\
        exists a' b' mid1 x mid2 moved ls1, mid = mid1 ++ x :: mid2 /\
            two p' a' b' (drop moved ls) (rev moved ++ lk) nh /\
            els Ss a' = map (drop moved) (els Ss a) /\
            mrg p lk (els (S0 hd csd) b) mid1 moved ls1 /\
            each (fun c => untouched c (vv p)) csd ls1 (els (S0 hd csd) b')) p.
Proof.
  intros T E. assert (B := join_both T). unfold move_range, both_run. apply (@wp_lens _ _ _ _ _ (c_transfer_range LJ _ _ _ _)).
  assert (Ok : aok SJ (vv p) (conj_ a b (length ls))).
  { destruct B as (G & _). rewrite <- join_mem. apply (g_ok G). }
  assert (OJ := @L_ok V throws pick dv (s_pick Sd_) hs boxs Ss (rep0 hs css) _ (box_ok throws dv Ss_) hd csd (s_codes Sd_)).
  assert (Li : i < length css). { rewrite <- (spec_len hs (fun _ (_ : unit) => False) (fun _ a => a) css a). apply nth_error_Some. congruence. }
  assert (Mg : forall lk c mid mv c', aok SJ (vv p) c ->
    merged (fun n y => aconf SJ (vv p n) (vv p y)) (fun a n a' => ains SJ Transfer (vv p) None a n a' /\ aok SJ (vv p) a') (asame SJ (vv p)) lk c mid mv c' ->
    mrg p lk (els SJ c) mid mv (els SJ c') /\ aok SJ (vv p) c').
  { intros lk0 c mid0 mv c' Ok0. apply (@merged_map _ _ _ _ _ _ _ _ (els SJ) (aok SJ (vv p))); auto.
    - intros x y. apply to_clash.
    - intros c1 x c2 P (A & Ok2). split; auto. eapply to_placed; [apply Sd_|exact P|exact A].
    - intros c1 c2 P A. split; [apply to_untouched; auto; apply Sd_|]. eapply (o_sameok OJ); eauto. }
  eapply wp_conseq; [eapply (@transfer_range_spec V throws pick dv (s_pick Sd_) hs boxs Ss (rep0 hs css) _ (box_ok throws dv Ss_) hd csd (s_codes Sd_) i); [| |exact B|rewrite conj_src; apply nth_error_nth with (d := []); exact E|]| |].
  - intros. eapply next_ok; eauto.
  - intros a0. rewrite spec_len. exact Li.
  - destruct T as (_ & Gs & _). assert (Gc := g_cnt Gs). unfold box in Gc |- *. rewrite Gc. assert (P := i_perm (g_inv Gs)).
    rewrite Forall_forall in P. apply nth_error_In, P in E. apply Permutation_length in E. rewrite !app_length in E. lia.
  - intros _ t (M & Q & c' & mv & Mr & B' & Es). cbn [fst snd]. rewrite !both_mem. rewrite join_mem in *. splits; auto.
    exists (src_arr c'), (dis c'), mv. splits; [now apply both_two|now rewrite Es, conj_src|].
    rewrite dis_els, <- (conj_els a b (length ls)). now apply Mg.
  - intros t (M & Q & c1 & c' & mid1 & x & mid2 & mv & Em & Mr & Sm & B' & Es). cbn [fst snd]. rewrite !both_mem. rewrite join_mem in *. splits; auto.
    exists (src_arr c'), (dis c'), mid1, x, mid2, mv, (els SJ c1). destruct (Mg _ _ _ _ _ Ok Mr) as (Mr' & Ok1). rewrite conj_els in Mr'. splits; auto.
    + now apply both_two.
    + now rewrite Es, conj_src.
    + rewrite dis_els. apply to_untouched; auto. apply Sd_.
Qed.

(** any operation *)
Lemma good_lk h cs s (a : AV (S0 h cs)) lk lk' out out' : Permutation lk lk' -> Permutation out out' ->
  @ContOk.good V dv h (box throws pick h cs) (S0 h cs) (rep0 h cs) s a lk out ->
  @ContOk.good V dv h (box throws pick h cs) (S0 h cs) (rep0 h cs) s a lk' out'.
Proof.
  intros P P' [R I C A M]. split; auto.
  - destruct I as [I1 I2 I3 I4 I5]. split; auto.
    + eapply NoDup_perm; eauto.
    + eapply Forall_impl; [|exact I2]. intros l Pl. cbv beta in Pl. now rewrite <- P.
    + intros x Ix. apply I3. eapply Permutation_in; [symmetry; exact P|auto].
  - now rewrite <- (Permutation_length P).
  - now rewrite <- P, <- P'.
Qed.
Definition pair_ok (p : St boxs * St boxd) (ls lk nh : list node) : Prop :=
  (exists a b, two p a b ls lk nh) /\ forall x, In x nh -> live (bget boxs (fst p)) x.

Lemma good_other s (b : AV (S0 hd csd)) lk out m out' : goodd s b lk out -> NoDup (null :: map fst (mem m)) ->
  Permutation (map fst (mem m)) (hd :: lk ++ out') ->
  (forall x, In x (hd :: lk) -> look (mem m) x = look (mem (bget boxd s)) x) -> goodd (bset boxd m s) b lk out'.
Proof.
  intros [R I C A M] N P E. assert (O := box_ok throws dv Sd_). destruct I as [I1 I2 I3 I4 I5]. split.
  - now apply (o_repb O).
  - rewrite (o_bb O). split; auto.
    + intros x Ix. destruct (I3 x Ix) as (v & Lk). exists v. rewrite E; [exact Lk|now right].
    + rewrite E; [exact I5|now left].
  - rewrite (o_cb O). exact C.
  - rewrite (o_bb O). eapply (o_ext O); [exact A|]. intros x l Il Ix. rewrite Forall_forall in I2. apply I2 in Il.
    unfold val. rewrite E; auto. right. eapply Permutation_in; eauto.
  - rewrite (o_bb O). exact P.
Qed.

(** The same in a memory with other nodes [ext]; they are left alone. *)
Definition pair_in (p : St boxs * St boxd) (ls lk nh ext : list node) : Prop :=
  (exists a b, two p a b ls lk (nh ++ ext)) /\ forall x, In x nh -> live (bget boxs (fst p)) x.
Definition alone2 (ext : list node) (p p' : St boxs * St boxd) : Prop :=
  forall x, In x ext -> look (mem (bget boxs (fst p'))) x = look (mem (bget boxs (fst p))) x.
Lemma run1_in p ls lk nh ext o : pair_in p ls lk nh ext -> allowed1 p ls lk nh o ->
  wp (run1 o)
     (fun r p' => (let '(ls', lk', nh') := ledger1 o (Some r) p' ls lk nh in pair_in p' ls' lk' nh' ext) /\ alone2 ext p p')
     (fun p' => (let '(ls', lk', nh') := ledger1 o None p' ls lk nh in pair_in p' ls' lk' nh' ext) /\ alone2 ext p p') p.
Proof.
  intros ((a & b & T) & Lv) Al.
  assert (KM : forall p' : St boxs * St boxd, mem (bget boxs (fst p')) = mem (bget boxs (fst p)) -> forall x, In x nh -> live (bget boxs (fst p')) x).
  { intros p' M x I. eapply live_mem; [symmetry; exact M|auto]. }
  assert (KL : forall p' : St boxs * St boxd, mem (bget boxs (fst p')) = mem (bget boxs (fst p)) -> alone2 ext p p').
  { intros p' M x I. now rewrite M. }
  assert (KE : forall p' ls' lk', (exists a b, two p' a b ls' lk' (nh ++ ext)) -> mem (bget boxs (fst p')) = mem (bget boxs (fst p)) ->
    pair_in p' (elems (@sequences V throws pick hs css (fst p'))) (elems (@sequences V throws pick hd csd (snd p'))) nh ext).
  { intros p' ls' lk' (a' & b' & (E & Gs & Gd)) M. split; [|now apply KM]. exists a', b'. split; auto.
    assert (Q1 := good_views throws pick css Gs). assert (Q2 := good_views throws pick csd Gd). rewrite Q1, Q2.
    assert (P1 := i_perm (g_inv Gs)). assert (P2 := i_perm (g_inv Gd)).
    assert (N1 := has_index Ss_ a'). assert (N2 := has_index Sd_ b').
    destruct (els Ss a') as [|l1 r1]; [easy|]. destruct (els (S0 hd csd) b') as [|l2 r2]; [easy|].
    inversion P1 as [|? ? H1 _]; subst. inversion P2 as [|? ? H2 _]; subst. cbn [elems]. split.
    - eapply good_lk; [symmetry; exact H1| |exact Gs]. now rewrite H2.
    - eapply good_lk; [symmetry; exact H2| |exact Gd]. now rewrite H1. }
  destruct o as [o|x|i f l]; cbn [run1 allowed1 ledger1] in *.
  - destruct p as (s, d). destruct T as (E & Gs & Gd). cbn [fst snd] in *.
    assert (Si : state_in dv hs boxs Ss (rep0 hs css) s ls nh (hd :: lk ++ ext)).
    { split; auto. exists a. eapply good_lk; [reflexivity| |exact Gs]. perm. }
    assert (X := @exec_in V throws pick dv hs boxs _ (@run_index V throws pick hs css) (@can_index V throws pick hs css) (s_pick Ss_) Ss (rep0 hs css) _
       (box_ok throws dv Ss_) (has_index Ss_) (fun x a => spec_ready _ _ _ _ x a) (fun s a lk out o => @index_good V throws pick dv hs css Ss_ s a lk out o)
       s ls nh (hd :: lk ++ ext) o Si Al).
    assert (K : forall s' ls' nh', state_in dv hs boxs Ss (rep0 hs css) s' ls' nh' (hd :: lk ++ ext) /\ alone boxs (hd :: lk ++ ext) s s' ->
       pair_in (s', bset boxd (bget boxs s') d) ls' lk nh' ext /\ alone2 ext (s, d) (s', bset boxd (bget boxs s') d)).
    { intros s' ls' nh' (((a' & G') & Lv') & Alo). split; [split; auto|].
      - exists a', b. split; [|split]; cbn [fst snd].
        + now rewrite (o_bb (box_ok throws dv Sd_)).
        + eapply good_lk; [reflexivity| |exact G']. perm.
        + eapply good_other; [exact Gd|apply (i_mem (g_inv G'))| |].
          * rewrite (g_mem G'). perm.
          * intros x I. rewrite (Alo x); [now rewrite E|]. destruct I as [I|I]; [now left|]. right. apply in_or_app. now left.
      - intros x I. cbn [fst]. apply Alo. right. apply in_or_app. now right. }
    unfold on_src. apply wp_lens. eapply wp_conseq; [exact X| |]; cbn [fst snd].
    + intros r s' Y. now apply K.
    + intros s' Y. now apply K.
  - apply wp_bind. eapply wp_conseq; [eapply move_one_spec; eauto| |].
    + intros (r, k) p' (M & _ & R). apply wp_ret. cbn [fst snd] in *. split; auto. destruct k.
      * destruct R as (_ & _ & a' & b' & T' & _). split; eauto.
      * destruct R as (_ & _ & a' & b' & T' & _). split; eauto.
    + intros p' (M & _ & a' & b' & T' & _). split; auto. split; eauto.
  - destruct Al as (sq & l1 & mid & l2 & Sq & Nt & -> & ->).
    assert (Q := good_views throws pick css (proj1 (proj2 T))). rewrite Q in Sq. injection Sq as <-.
    apply wp_bind. eapply wp_conseq; [eapply move_range_spec; eauto| |].
    + intros _ p' (M & _ & a' & b' & mv & T' & _). apply wp_ret. split; auto. eapply KE; eauto.
    + intros p' (M & _ & a' & b' & _ & _ & _ & mv & _ & _ & T' & _). split; auto. eapply KE; eauto.
Qed.
Lemma pair_in_nil p ls lk nh : pair_in p ls lk nh [] <-> pair_ok p ls lk nh.
Proof. unfold pair_in, pair_ok. now rewrite app_nil_r. Qed.
Lemma run1_ok p ls lk nh o : pair_ok p ls lk nh -> allowed1 p ls lk nh o ->
  wp (run1 o)
     (fun r p' => let '(ls', lk', nh') := ledger1 o (Some r) p' ls lk nh in pair_ok p' ls' lk' nh')
     (fun p' => let '(ls', lk', nh') := ledger1 o None p' ls lk nh in pair_ok p' ls' lk' nh') p.
Proof.
  intros K Al. apply pair_in_nil in K. eapply wp_conseq; [eapply run1_in; eauto| |]; cbn beta.
  - intros r p' (X & _). destruct (ledger1 _ _ _ _ _ _) as ((?, ?), ?). now apply pair_in_nil.
  - intros p' (X & _). destruct (ledger1 _ _ _ _ _ _) as ((?, ?), ?). now apply pair_in_nil.
Qed.
End Move.

Lemma two_flip V throws pick (dv : V) hs hd css csd s d a b ls lk nh :
  @two V throws pick dv hs hd css csd (s, d) a b ls lk nh -> @two V throws pick dv hd hs csd css (d, s) b a lk ls nh.
Proof. intros (A & B & C). split; [symmetry; exact A|split; [exact C|exact B]]. Qed.

(** ** histories of two containers *)
Section Two.
Variable V : Type.
Variable throws : nat -> bool.
Variable pick : list node -> node.
Variable dv : V.
Variables (hA hB : node) (csA csB : list (code V)).
Notation boxA := (box throws pick hA csA).
Notation boxB := (box throws pick hB csB).
Notation state := (St boxA * St boxB)%type.

(** [(false, o)]: [o] from the first container to the second, [(true, o)]: from the second to the first *)
Definition run2 (o : bool * op1 V) : M state res :=
  if fst o then lensM (fun p => (snd p, fst p)) (fun q _ => (snd q, fst q)) (@run1 V throws pick hB hA csB csA (snd o))
  else @run1 V throws pick hA hB csA csB (snd o).
Definition allowed2 (p : state) (la lb nh : list node) (o : bool * op1 V) : Prop :=
  if fst o then @allowed1 V throws pick hB hA csB csA (snd p, fst p) lb la nh (snd o)
  else @allowed1 V throws pick hA hB csA csB p la lb nh (snd o).
Definition ledger2 (o : bool * op1 V) (r : option res) (p' : state) (la lb nh : list node) : list node * list node * list node :=
  if fst o then let '(lb', la', nh') := @ledger1 V throws pick hB hA csB csA (snd o) r (snd p', fst p') lb la nh in (la', lb', nh')
  else @ledger1 V throws pick hA hB csA csB (snd o) r p' la lb nh.

(** two containers just constructed *)
Definition start2 (n : nat) : state :=
  let b := mkB [(hA, None); (hB, None)] n in
  (fresh throws pick hA (mem_world V) csA b, fresh throws pick hB (mem_world V) csB b).
Inductive reach2 : state -> list node -> list node -> list node -> Prop :=
| r2_start n : reach2 (start2 n) [] [] []
| r2_ret p la lb nh o r p' la' lb' nh' : reach2 p la lb nh -> allowed2 p la lb nh o -> run2 o p = Ret r p' ->
    ledger2 o (Some r) p' la lb nh = (la', lb', nh') -> reach2 p' la' lb' nh'
| r2_exn p la lb nh o p' la' lb' nh' : reach2 p la lb nh -> allowed2 p la lb nh o -> run2 o p = Exn p' ->
    ledger2 o None p' la lb nh = (la', lb', nh') -> reach2 p' la' lb' nh'.

Record setting2 : Prop := mkSet2 {
  s2_a : setting pick hA csA;
  s2_b : setting pick hB csB;
  s2_ne : hA <> hB }.
Hypothesis S2 : setting2.
Notation ok2 := (@pair_ok V throws pick dv hA hB csA csB).

Lemma pair_flip p la lb nh : ok2 p la lb nh <-> @pair_ok V throws pick dv hB hA csB csA (snd p, fst p) lb la nh.
Proof.
  destruct p as (s, d). split; intros ((a & b & T) & Lv); (split; [exists b, a; now apply two_flip|]); destruct T as (E & _); cbn [fst snd] in *.
  - now rewrite <- E.
  - now rewrite <- E.
Qed.
Lemma fresh_good h cs b out : setting pick h cs -> look (mem b) h = Some None -> NoDup (null :: map fst (mem b)) ->
  Permutation (map fst (mem b)) (h :: out) ->
  exists a, @ContOk.good V dv h (box throws pick h cs) (spec h (fun _ (_ : unit) => False) (fun _ a => a) cs)
     (srep throws pick h (mem_world V) (fun _ (_ : unit) => True) (fun _ _ => False) (fun _ a => a) cs)
     (fresh throws pick h (mem_world V) cs b) a [] out.
Proof.
  intros St_ Lk N P. assert (B : bget (box throws pick h cs) (fresh throws pick h (mem_world V) cs b) = b) by (unfold box; now rewrite wld_get, wld_fresh).
  exists (empty h (fun _ (_ : unit) => False) (fun _ a => a) cs tt). split.
  - apply (fresh_rep throws pick dv (mem_world V)); [apply (s_hd St_)|exact I].
  - rewrite B. split; auto.
    + constructor.
    + apply Forall_forall. intros l Il. apply empty_els in Il. now subst.
    + easy.
  - unfold box. apply fresh_cget.
  - apply empty_ok.
  - rewrite B. exact P.
Qed.
Lemma start2_ok n : ok2 (start2 n) [] [] [].
Proof.
  destruct S2 as [Sa Sb Ne].
  assert (N : NoDup (null :: map fst (mem (mkB [(hA, @None V); (hB, None)] n)))).
  { cbn. assert (A1 := s_hd Sa). assert (A2 := s_hd Sb). repeat (constructor; cbn; [intuition congruence|]). constructor. }
  destruct (@fresh_good hA csA (mkB [(hA, None); (hB, None)] n) [hB] Sa) as (a & G1); auto.
  { cbn. now rewrite Nat.eqb_refl. }
  destruct (@fresh_good hB csB (mkB [(hA, None); (hB, None)] n) [hA] Sb) as (b & G2); auto.
  { cbn. rewrite Nat.eqb_refl. destruct (Nat.eqb_spec hB hA); congruence. }
  { cbn. apply perm_swap. }
  split; [|easy]. exists a, b. split; [|split; [exact G1|exact G2]].
  cbn [fst snd start2]. unfold box. rewrite !wld_get, !wld_fresh. reflexivity.
Qed.
Lemma run2_ok p la lb nh o : ok2 p la lb nh -> allowed2 p la lb nh o ->
  wp (run2 o)
     (fun r p' => let '(ls', lk', nh') := ledger2 o (Some r) p' la lb nh in ok2 p' ls' lk' nh')
     (fun p' => let '(ls', lk', nh') := ledger2 o None p' la lb nh in ok2 p' ls' lk' nh') p.
Proof.
  intros P A. destruct o as ([|], o); unfold run2, allowed2, ledger2 in *; cbn [fst snd] in *.
  - apply wp_lens. apply pair_flip in P. destruct p as (s, d). cbn [fst snd] in *.
    eapply wp_conseq; [eapply (run1_ok (s2_b S2) (s2_a S2)); eauto| |].
    + intros r (d', s'). cbn [fst snd]. destruct (ledger1 _ _ _ _ _ _ _ _ _ _ _) as ((l1, l2), l3). intros X. now apply pair_flip.
    + intros (d', s'). cbn [fst snd]. destruct (ledger1 _ _ _ _ _ _ _ _ _ _ _) as ((l1, l2), l3). intros X. now apply pair_flip.
  - apply (run1_ok (s2_a S2) (s2_b S2)); auto.
Qed.
Theorem reach2_ok p la lb nh : reach2 p la lb nh -> ok2 p la lb nh.
Proof.
  induction 1 as [n|p la lb nh o r p' la' lb' nh' R IH A X E|p la lb nh o p' la' lb' nh' R IH A X E].
  - apply start2_ok.
  - assert (Y := run2_ok o IH A). unfold wp in Y. now rewrite X, E in Y.
  - assert (Y := run2_ok o IH A). unfold wp in Y. now rewrite X, E in Y.
Qed.
End Two.
