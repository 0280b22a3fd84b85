(** C51, C44: saving and loading; C03 for histories with saving and loading. *)
From Verif Require Import Prelude Layer LayerBase SeqSpec Stack View Container ContOk Iops History ContSpec Client Pair Match Save Serial SerialOk.
From Verif Require ContEx.
Set Implicit Arguments.

Section One.
Variable V : Type.
Variable throws : nat -> bool.
Variable pick : list node -> node.
Variable dv : V.
Variable hd : node.
Variable cs : list (code V).
Notation box := (box throws pick hd cs).
Notation sequences := (@sequences V throws pick hd cs).
Notation count := (@count V throws pick hd cs).
Notation value_of := (@value_of V throws pick dv hd cs).
Notation memory := (@memory V throws pick hd cs).
Notation calls := (@calls V throws pick hd cs).
Notation exec_box := (@exec_box V throws pick hd cs).
Notation allowed_box := (@allowed_box V throws pick hd cs).
Notation sane := (@sane V throws pick dv hd cs).
Implicit Types (s : St box) (lk nh : list node).

(** what is in the entries of a saver before they are used *)
Record junk := mkJ { j_prev : nat -> nat; j_ord : nat -> bool; j_top : nat -> nat; j_ent : nat -> nat; j_piles : nat }.
Definition store (j : junk) : M (St box) (stored V) := c_save throws pick hd cs (j_prev j) (j_ord j) (j_top j) (j_ent j) (j_piles j).
Definition fetch (r : stored V) : M (St box) unit := c_load throws pick hd cs r.
(** the same, with what is known of pointers afterwards *)
Definition fetch_track (r : stored V) : M (St box) (node -> node) := c_load_track throws pick hd cs r.

(** histories with saving, and loading of whatever there is in an archive *)
Inductive history : St box -> list node -> list node -> Prop :=
| hi_start n : history (start throws pick hd cs n) [] []
| hi_ret s lk nh o r s' : history s lk nh -> allowed_box s lk nh o -> exec_box o s = Ret r s' ->
    history s' (fst (ledger o (Some r) lk nh)) (snd (ledger o (Some r) lk nh))
| hi_exn s lk nh o s' : history s lk nh -> allowed_box s lk nh o -> exec_box o s = Exn s' ->
    history s' (fst (ledger o None lk nh)) (snd (ledger o None lk nh))
| hi_save s lk nh j r s' : history s lk nh -> store j s = Ret r s' -> history s' lk nh
| hi_save_exn s lk nh j s' : history s lk nh -> store j s = Exn s' -> history s' lk nh
| hi_load s lk nh r s' : history s lk nh -> fetch r s = Ret tt s' -> history s' (elems (sequences s')) nh
| hi_load_exn s lk nh r s' : history s lk nh -> fetch r s = Exn s' -> history s' (elems (sequences s')) nh.

Hypothesis St_ : setting pick hd cs.
Notation S0 := (spec hd (fun _ (_ : unit) => False) (fun _ a => a) cs).
Notation rep0 := (srep throws pick hd (mem_world V) (fun _ (_ : unit) => True) (fun _ _ => False) (fun _ a => a) cs).
Notation good := (@ContOk.good V dv hd box S0 rep0).
Notation state_ok := (@state_ok V dv hd box S0 rep0).
Notation O := (box_ok throws dv St_).

Lemma exec_fine s lk nh o : state_ok s lk nh -> allowed_box s lk nh o ->
  wp (exec_box o) (fun r s' => state_ok s' (fst (ledger o (Some r) lk nh)) (snd (ledger o (Some r) lk nh)))
     (fun s' => state_ok s' (fst (ledger o None lk nh)) (snd (ledger o None lk nh))) s.
Proof.
  intros H A. refine (exec_ok (@run_index V throws pick hd cs) (@can_index V throws pick hd cs) (s_pick St_) O _ _ _ o H A).
  - apply (has_index St_).
  - intros x a. apply spec_ready.
  - intros. eapply index_good; eauto.
Qed.
Lemma adv_state s lk nh n : state_ok s lk nh -> state_ok (adv box n s) lk nh.
Proof.
  intros ((a & G) & Lv). split; [exists a; exact (good_tick throws St_ n G)|]. intros x I. eapply live_mem; [|apply Lv; exact I].
  unfold adv. now rewrite (o_bb O).
Qed.
Lemma elems_ok s a lk nh : good s a lk nh -> Permutation (elems (sequences s)) lk.
Proof.
  intros G. rewrite (good_views throws pick cs G). assert (N := has_index St_ a). assert (P := i_perm (g_inv G)).
  destruct (els S0 a) as [|l r]; [easy|]. now inversion P.
Qed.
Lemma kept_state s s' a' lk' nh : (forall x, In x nh -> live (bget box s) x) -> @kept_nodes V throws pick hd cs s s' nh -> good s' a' lk' nh ->
  state_ok s' lk' nh.
Proof.
  intros Lv K G. split; eauto. intros x I. destruct (Lv x I) as (v & L). exists v. unfold Client.box in *. now rewrite (K x I).
Qed.
Lemma load_state s lk nh r : state_ok s lk nh ->
  wp (fetch r) (fun _ s' => state_ok s' (elems (sequences s')) nh) (fun s' => state_ok s' (elems (sequences s')) nh) s.
Proof.
  intros ((a & G) & Lv).
  assert (Fin : forall s', @kept_nodes V throws pick hd cs s s' nh /\ (exists a' lk', good s' a' lk' nh) -> state_ok s' (elems (sequences s')) nh).
  { intros s' (K & a' & lk' & G'). eapply kept_state; eauto. eapply good_lk; [symmetry; eapply elems_ok; eauto|reflexivity|exact G']. }
  eapply wp_conseq; [apply (load_any_ok throws (s_pick St_) St_ r G)|..].
  - intros u s'. apply Fin.
  - exact Fin.
Qed.
Theorem history_ok s lk nh : history s lk nh -> state_ok s lk nh.
Proof.
  induction 1 as [n|s lk nh o r s' R IH A X|s lk nh o s' R IH A X|s lk nh j r s' R IH X|s lk nh j s' R IH X|s lk nh r s' R IH X|s lk nh r s' R IH X].
  - destruct (start_good throws dv St_ n) as (a & G). split; [eauto|easy].
  - assert (W := exec_fine o IH A). unfold wp in W. now rewrite X in W.
  - assert (W := exec_fine o IH A). unfold wp in W. now rewrite X in W.
  - assert (IH0 := IH). destruct IH0 as ((a & G) & _). assert (W := save_box_ok throws (s_pick St_) St_ (j_prev j) (j_ord j) (j_top j) (j_ent j) (j_piles j) G).
    unfold wp, store in *. rewrite X in W. destruct W as ((n & _ & ->) & _). now apply adv_state.
  - assert (IH0 := IH). destruct IH0 as ((a & G) & _). assert (W := save_box_ok throws (s_pick St_) St_ (j_prev j) (j_ord j) (j_top j) (j_ent j) (j_piles j) G).
    unfold wp, store in *. rewrite X in W. destruct W as (n & _ & ->). now apply adv_state.
  - assert (W := load_state r IH). unfold wp in W. now rewrite X in W.
  - assert (W := load_state r IH). unfold wp in W. now rewrite X in W.
Qed.

(** C03, for histories in which containers are saved, and loaded from any archive *)
Theorem C03_serial_consistent s lk nh : history s lk nh -> exists ls, sane s lk nh ls.
Proof. intros R. destruct (history_ok R) as ((a & G) & Lv). eexists. eapply good_sane; eauto. Qed.
Theorem C03_serial_defined s lk nh : history s lk nh ->
  (forall o, allowed_box s lk nh o -> exec_box o s <> UB) /\ (forall j, store j s <> UB) /\ (forall r, fetch r s <> UB).
Proof.
  intros R. assert (K := history_ok R). splits.
  - intros o A X. assert (W := exec_fine o K A). unfold wp in W. now rewrite X in W.
  - intros j X. destruct K as ((a & G) & _). assert (W := save_box_ok throws (s_pick St_) St_ (j_prev j) (j_ord j) (j_top j) (j_ent j) (j_piles j) G).
    unfold wp, store in *. now rewrite X in W.
  - intros r X. assert (W := load_state r K). unfold wp in W. now rewrite X in W.
Qed.

Lemma open_history s lk nh ls : history s lk nh -> sequences s = Some ls ->
  exists a, good s a lk nh /\ ls = els S0 a /\ forall x, In x nh -> live (bget box s) x.
Proof. intros R Sq. destruct (history_ok R) as ((a & G) & Lv). exists a. splits; auto. apply good_views in G. congruence. Qed.
Lemma after_adv s a lk nh n : good s a lk nh ->
  memory (adv box n s) = memory s /\ count (adv box n s) = count s /\ sequences (adv box n s) = Some (els S0 a) /\ calls (adv box n s) = n.
Proof.
  intros G. unfold Client.memory, Client.count, Client.calls. splits.
  - unfold adv. now rewrite (o_bb O).
  - apply (o_cb O).
  - eapply good_views. exact (good_tick throws St_ n G).
  - unfold adv. now rewrite (o_bb O).
Qed.

(** C51: saving leaves the container alone *)
Theorem C51_save s lk nh ls j : history s lk nh -> sequences s = Some ls ->
  match store j s with
  | Ret _ s' => quiet throws (calls s) (calls s') /\ memory s' = memory s /\ count s' = count s /\ sequences s' = Some ls
  | Exn s' => blown throws (calls s) (calls s') /\ memory s' = memory s /\ count s' = count s /\ sequences s' = Some ls
  | UB => False
  end.
Proof.
  intros R Sq. destruct (open_history R Sq) as (a & G & -> & Lv). assert (W := save_box_ok throws (s_pick St_) St_ (j_prev j) (j_ord j) (j_top j) (j_ent j) (j_piles j) G).
  unfold wp, store in *. destruct (c_save throws pick hd cs _ _ _ _ _ s) as [r s'|s'|]; auto.
  - destruct W as ((n & Q & ->) & _). destruct (after_adv n G) as (A & B & C & D). rewrite D. splits; auto.
  - destruct W as (n & Q & ->). destruct (after_adv n G) as (A & B & C & D). rewrite D. splits; auto.
Qed.
(** C51: an archive may contain anything *)
Theorem C51_load_any s lk nh r : history s lk nh ->
  match fetch r s with
  | Ret _ s' | Exn s' => (forall x, In x nh -> value_of s' x = value_of s x) /\ exists ls, sane s' (elems (sequences s')) nh ls
  | UB => False
  end.
Proof.
  intros R. destruct (history_ok R) as ((a & G) & Lv). assert (W := load_any_ok throws (s_pick St_) St_ r G).
  assert (Fin : forall s', @kept_nodes V throws pick hd cs s s' nh /\ (exists a' lk', good s' a' lk' nh) ->
    (forall x, In x nh -> value_of s' x = value_of s x) /\ exists ls, sane s' (elems (sequences s')) nh ls).
  { intros s' (K & a' & lk' & G'). split.
    - intros x I. unfold Client.value_of, val, Client.box. now rewrite (K x I).
    - assert (G2 : good s' a' (elems (sequences s')) nh) by (eapply good_lk; [symmetry; eapply elems_ok; eauto|reflexivity|exact G']).
      eexists. eapply good_sane; [exact St_|exact G2|]. apply (kept_state Lv K G2). }
  unfold wp, fetch in *. destruct (c_load throws pick hd cs r s) as [u s'|s'|]; auto.
Qed.
End One.

(** One container is saved; what has been written is loaded into another one, with the same indices, elsewhere. *)
Section Two.
Variable V : Type.
Variables throws throws' : nat -> bool.
Variables pick pick' : list node -> node.
Variable dv : V.
Variables hd hd' : node.
Variable cs : list (code V).
Hypothesis S1 : setting pick hd cs.
Hypothesis S2 : setting pick' hd' cs.
Notation goodt := (@ContOk.good V dv hd' (box throws' pick' hd' cs) (spec hd' (fun _ (_ : unit) => False) (fun _ a => a) cs)
  (srep throws' pick' hd' (mem_world V) (fun _ (_ : unit) => True) (fun _ _ => False) (fun _ a => a) cs)).

(** C51, C44.  Iterators which were saved after the container are loaded as iterators to the same elements of the container
    loaded, in the same positions except in hashed indices; end() as end() *)
Theorem C51_iterators s lk nh ls j r s1 t lt_ nht :
  @history V throws pick hd cs s lk nh -> sequences throws pick hd cs s = Some ls -> store throws pick hd cs j s = Ret r s1 ->
  @history V throws' pick' hd' cs t lt_ nht ->
  match fetch_track throws' pick' hd' cs r t with
  | Ret tr t' => let f x := load_iterator tr (save_iterator x) in f hd = hd' /\ f null = null /\ exists ls',
      sequences throws' pick' hd' cs t' = Some ls' /\
      each (fun c l l' => match c with Hashed _ _ _ _ _ _ _ => Permutation l l' | _ => l = l' end) cs ls' (map (map f) ls) /\
      (forall x, In x lk -> value_of throws' pick' dv hd' cs t' (f x) = value_of throws pick dv hd cs s x) /\
      (forall x, In x nht -> value_of throws' pick' dv hd' cs t' x = value_of throws' pick' dv hd' cs t x) /\
      quiet throws' (calls throws' pick' hd' cs t) (calls throws' pick' hd' cs t') /\
      NoDup (map f lk) /\ sane throws' pick' dv hd' cs t' (map f lk) nht ls'
  | Exn t' => blown throws' (calls throws' pick' hd' cs t) (calls throws' pick' hd' cs t') /\
      (forall x, In x nht -> value_of throws' pick' dv hd' cs t' x = value_of throws' pick' dv hd' cs t x) /\
      exists ls', sane throws' pick' dv hd' cs t' (elems (sequences throws' pick' hd' cs t')) nht ls'
  | UB => False
  end.
Proof.
  intros R1 Sq X R2. destruct (open_history dv S1 R1 Sq) as (a & G & -> & Lv).
  assert (W := save_box_ok throws (s_pick S1) S1 (j_prev j) (j_ord j) (j_top j) (j_ent j) (j_piles j) G). unfold wp, store in *. rewrite X in W. destruct W as (_ & Tk).
  destruct (history_ok dv S2 R2) as ((b & H) & Lv2). set (Ls := els _ a) in *. set (base := List.hd [] Ls) in *.
  assert (Pm := i_perm (g_inv G)). fold Ls in Pm. assert (Ne : Ls <> []) by exact (has_index S1 a).
  assert (Pb : Permutation base lk) by (unfold base; destruct Ls; [easy|now inversion Pm]).
  assert (N := good_nodup G). rewrite !NoDup_cons_iff, NoDup_app_iff, in_app_iff in N.
  assert (Nb : NoDup (null :: hd :: base)).
  { constructor; [destruct N as (N0 & _); cbn in *; rewrite in_app_iff in N0; rewrite Pb; tauto|]. constructor; [rewrite Pb; tauto|]. eapply NoDup_perm; [symmetry; exact Pb|tauto]. }
  assert (W := @load_saved_ok V throws' pick' dv hd' (s_pick S2) cs S2 hd _ base Ls r t b lt_ nht H Tk Nb).
  assert (Pb2 : Forall (fun l => Permutation l base) Ls) by (eapply Forall_impl; [|exact Pm]; intros l P; cbn beta in P; rewrite P; now symmetry).
  assert (Lg := g_ok G). apply to_legal in Lg; [|apply (s_codes S1)].
  specialize (W Pb2 Lg (pairs_of throws S1 (j_prev j) (j_ord j) (j_top j) (j_ent j) G Pb)).
  unfold wp, fetch_track in *. destruct (c_load_track throws' pick' hd' cs r t) as [f t'|t'|]; auto.
  - destruct W as (K & Q & F1 & F2 & a' & Inj & Vf & G' & Rs). cbv zeta. unfold load_iterator, save_iterator. change (fun x => f x) with f. split; auto. split; auto. exists (els (spec hd' (fun _ (_ : unit) => False) (fun _ a => a) cs) a').
    assert (Gl : goodt t' a' (map f lk) nht).
    { eapply good_lk; [|reflexivity|exact G']. rewrite <- Permutation_rev. now apply Permutation_map. }
    splits; auto.
    + eapply good_views; eauto.
    + intros x I. apply Vf. eapply Permutation_in; [symmetry; exact Pb|exact I].
    + intros x I. unfold Client.value_of, val, Client.box. now rewrite (K x I).
    + eapply NoDup_perm; [apply Permutation_map; exact Pb|]. apply nodup_map_in; auto. inversion Nb as [|? ? _ Nb']. now inversion Nb'.
    + eapply good_sane; [exact S2|exact Gl|]. apply (kept_state Lv2 K Gl).
  - destruct W as (K & Q & a' & lk' & G'). splits; auto.
    + intros x I. unfold Client.value_of, val, Client.box. now rewrite (K x I).
    + assert (G2 : goodt t' a' (elems (sequences throws' pick' hd' cs t')) nht).
      { eapply good_lk; [symmetry; eapply elems_ok; eauto|reflexivity|exact G']. }
      eexists. eapply good_sane; [exact S2|exact G2|]. apply (kept_state Lv2 K G2).
Qed.
(** C51, C44.  [f] takes every element saved to the one loaded; the sequences of all indices are as they were, except
    that the order of hashed indices is not kept *)
Theorem C44_C51_load s lk nh ls j r s1 t lt_ nht :
  @history V throws pick hd cs s lk nh -> sequences throws pick hd cs s = Some ls -> store throws pick hd cs j s = Ret r s1 ->
  @history V throws' pick' hd' cs t lt_ nht ->
  match fetch throws' pick' hd' cs r t with
  | Ret _ t' => exists f ls',
      sequences throws' pick' hd' cs t' = Some ls' /\
      each (fun c l l' => match c with Hashed _ _ _ _ _ _ _ => Permutation l l' | _ => l = l' end) cs ls' (map (map f) ls) /\
      (forall x, In x lk -> value_of throws' pick' dv hd' cs t' (f x) = value_of throws pick dv hd cs s x) /\
      (forall x, In x nht -> value_of throws' pick' dv hd' cs t' x = value_of throws' pick' dv hd' cs t x) /\
      quiet throws' (calls throws' pick' hd' cs t) (calls throws' pick' hd' cs t') /\
      NoDup (map f lk) /\ sane throws' pick' dv hd' cs t' (map f lk) nht ls'
  | Exn t' => blown throws' (calls throws' pick' hd' cs t) (calls throws' pick' hd' cs t') /\
      (forall x, In x nht -> value_of throws' pick' dv hd' cs t' x = value_of throws' pick' dv hd' cs t x) /\
      exists ls', sane throws' pick' dv hd' cs t' (elems (sequences throws' pick' hd' cs t')) nht ls'
  | UB => False
  end.
Proof.
  intros R1 Sq X R2. assert (W := C51_iterators j R1 Sq X R2). unfold fetch, fetch_track, c_load, bind in *. destruct (c_load_track throws' pick' hd' cs r t) as [f t'|t'|]; auto.
  destruct W as (_ & _ & ls' & W). exists f, ls'. exact W.
Qed.
End Two.

(** ** A case *)
Lemma reach_history V throws pick hd (cs : list (code V)) s lk nh : reachable throws pick hd cs s lk nh -> history throws pick hd cs s lk nh.
Proof.
  induction 1 as [s (n & ->)|s lk nh o r s' R IH A X|s lk nh o s' R IH A X].
  - apply hi_start.
  - eapply hi_ret; eauto.
  - eapply hi_exn; eauto.
Qed.
Definition cs5 : list (code nat) := [ContEx.by_half; Sequenced nat 0 0; ContEx.hash_half; RandomAccess nat 0; ContEx.hash_id true].
Notation pick0 := ContEx.next_node.
Definition never (n : nat) : bool := false.
Definition at80 (n : nat) : bool := n =? 80.
Definition src_ops : list (op nat (nat * iop nat)) :=
  map (fun v => Insert _ v None) [6; 8; 5; 7; 9; 4] ++ [Index nat (1, Move nat SReverse); Index nat (3, Move nat (SRelocate 5 3))].
Definition dst_ops : list (op nat (nat * iop nat)) := map (fun v => Insert _ v None) [60; 4; 5] ++ [Extract nat _ 5].
Notation src_play := (ContEx.play never pick0 1 cs5 src_ops (start never pick0 1 cs5 0) [] []).
Notation dst_play th := (ContEx.play th pick0 3 cs5 dst_ops (start th pick0 3 cs5 0) [] []).
Definition src_state : St (box never pick0 1 cs5) := fst src_play.
Definition dst_state th : St (box th pick0 3 cs5) := fst (dst_play th).
Lemma cs5_setting h : h <> 0 -> setting pick0 h cs5.
Proof.
  intros N. split; [exact ContEx.next_node_ok| |easy|exact N].
  repeat (constructor; [first [exact ContEx.nat_swo|apply ContEx.nat_heq|exact I|idtac]|]); try constructor.
Qed.
Lemma src_history : history never pick0 1 cs5 src_state [7; 6; 5; 4; 3; 2] [].
Proof.
  apply reach_history.
  assert (P : ContEx.playable never pick0 1 cs5 src_ops (start never pick0 1 cs5 0) [] []) .
  { vm_compute; repeat split; auto 12.
    - do 3 eexists. splits; [reflexivity..|]. split; auto. eexists. apply st_reverse.
    - do 3 eexists. splits; [reflexivity..|]. split; auto. eexists. now apply (st_relocate 1 [2] 3 [4; 5; 6; 7] [2; 4] [5; 6; 7]). }
  assert (Q := @ContEx.play_reach nat never pick0 1 cs5 src_ops _ [] [] (ContEx.start_reach never pick0 1 cs5 0) P).
  assert (E : snd src_play = ([7; 6; 5; 4; 3; 2], [])) by (vm_compute; reflexivity). rewrite E in Q. exact Q.
Qed.
Lemma dst_history th : th = never \/ th = at80 -> history th pick0 3 cs5 (dst_state th) [6; 4] [5].
Proof.
  intros T. apply reach_history.
  assert (P : ContEx.playable th pick0 3 cs5 dst_ops (start th pick0 3 cs5 0) [] []).
  { destruct T as [-> | ->]; vm_compute; intuition discriminate. }
  assert (Q := @ContEx.play_reach nat th pick0 3 cs5 dst_ops _ [] [] (ContEx.start_reach th pick0 3 cs5 0) P).
  assert (E : snd (dst_play th) = ([6; 4], [5])) by (destruct T as [-> | ->]; vm_compute; reflexivity). rewrite E in Q. exact Q.
Qed.
Definition junk1 : junk := mkJ (fun n => n + 3) (fun _ => true) (fun _ => 7) (fun n => 2 * n) 5.
Definition archive : option (stored nat) := match store never pick0 1 cs5 junk1 src_state with Ret r _ => Some r | _ => None end.
Definition load_seen th (o : out (St (box th pick0 3 cs5)) unit) :=
  let look_at p := (sequences th pick0 3 cs5 p, map fst (memory th pick0 3 cs5 p)) in
  match o with Ret _ p => (0, look_at p) | Exn p => (1, look_at p) | UB => (2, (None, [])) end.
Definition fetched th := match archive with Some r => fetch th pick0 3 cs5 r (dst_state th) | None => UB end.
Definition f6 (x : node) : node := match x with 4 => 6 | 7 => 7 | 2 => 8 | 5 => 9 | 3 => 10 | 6 => 11 | _ => 0 end.
(** an archive in which the order of the random access index is cut short *)
Definition cut (r : stored nat) : stored nat := mkSv (sv_count r) (sv_items r) (sv_header r) (firstn 12 (sv_order r)).
(** the hypotheses of the theorems are met, and what happens: the elements go to those given by [f6], and the sequences
    are as in the container saved (in the hashed index which is not unique they are not); or the insertion of the sixth element throws; or the
    archive ends too early, all elements having been inserted *)
Example serial_case :
  let ls := [[4; 7; 2; 5; 3; 6]; [7; 6; 5; 4; 3; 2]; [7; 4; 5; 2; 6; 3]; [2; 4; 3; 5; 6; 7]; [2; 3; 4; 5; 6; 7]] in
  setting pick0 1 cs5 /\ setting pick0 3 cs5 /\ history never pick0 1 cs5 src_state [7; 6; 5; 4; 3; 2] [] /\
  (forall th, th = never \/ th = at80 -> history th pick0 3 cs5 (dst_state th) [6; 4] [5]) /\
  sequences never pick0 1 cs5 src_state = Some ls /\
  load_seen (Ret tt (dst_state at80)) = (0, (Some [[6; 4]; [4; 6]; [6; 4]; [4; 6]; [4; 6]], [6; 5; 4; 3])) /\
  load_seen (fetched never) =
    (0, (Some [map f6 [4; 7; 2; 5; 3; 6]; map f6 [7; 6; 5; 4; 3; 2]; [11; 10; 9; 8; 7; 6]; map f6 [2; 4; 3; 5; 6; 7]; [6; 7; 8; 9; 10; 11]],
         [11; 10; 9; 8; 7; 6; 5; 3])) /\
  load_seen (fetched at80) = (1, (Some [[6; 7; 8; 9; 10]; [6; 7; 8; 9; 10]; [7; 6; 9; 8; 10]; [6; 7; 8; 9; 10]; [6; 7; 8; 9; 10]], [10; 9; 8; 7; 6; 5; 3])) /\
  load_seen (match archive with Some r => fetch never pick0 3 cs5 (cut r) (dst_state never) | None => UB end) =
    (1, (Some [[6; 7; 8; 9; 10; 11]; [7; 11; 9; 6; 10; 8]; [11; 10; 9; 8; 7; 6]; [8; 6; 7; 9; 10; 11]; [6; 7; 8; 9; 10; 11]], [11; 10; 9; 8; 7; 6; 5; 3])).
Proof.
  intros ls. splits; [now apply cs5_setting|now apply cs5_setting|exact src_history|exact dst_history|vm_compute; reflexivity..].
Qed.
(** iterators to all the elements, end() and a null pointer *)
Example iterators_case : match archive with
  | Some r => match fetch_track never pick0 3 cs5 r (dst_state never) with Ret tr _ => map (fun x => load_iterator tr (save_iterator x)) [4; 7; 2; 5; 3; 6; 1; 0] | _ => [] end
  | None => [] end = [6; 7; 8; 9; 10; 11; 3; 0].
Proof. vm_compute. reflexivity. Qed.

Print Assumptions C03_serial_consistent.
Print Assumptions C03_serial_defined.
Print Assumptions C51_save.
Print Assumptions C51_load_any.
Print Assumptions C44_C51_load.
Print Assumptions C51_iterators.
