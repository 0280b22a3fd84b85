(** C47: copy construction; C03 for histories with copies. *)
From Verif Require Import Prelude Layer LayerBase Stack View Container ContOk Iops History ContSpec Client Transfer Conv Pair PairProps Copy CopyOk.
From Verif Require ContEx.
Set Implicit Arguments.

Section Props.
Variable V : Type.
Variable throws : nat -> bool.
Variable pick : list node -> node.
Variable dv : V.
Variables (hA hB : node) (cs : list (code V)).
Notation boxA := (box throws pick hA cs).
Notation boxB := (box throws pick hB cs).
Notation state := (St boxA * St boxB)%type.
Notation seqA p := (@sequences V throws pick hA cs (fst p)).
Notation seqB p := (@sequences V throws pick hB cs (snd p)).
Notation countA p := (@count V throws pick hA cs (fst p)).
Notation countB p := (@count V throws pick hB cs (snd p)).
Notation value_of p := (@value_of V throws pick dv hA cs (fst p)).
Notation memory p := (@memory V throws pick hA cs (fst p)).
Notation calls p := (@calls V throws pick hA cs (fst p)).
Notation run2 := (@run2 V throws pick hA hB cs cs).
Notation allowed2 := (@allowed2 V throws pick hA hB cs cs).
Notation ledger2 := (@ledger2 V throws pick hA hB cs cs).
Notation setting2 := (setting2 pick hA hB cs cs).
Notation sane2 := (@sane2 V throws pick dv hA hB cs cs).
Implicit Types (p : state) (la lb nh : list node).

(** The second container, which is empty, is destroyed; its header is allocated again, and a copy of the first one is
    constructed there.  If this throws the second container is an empty one again. *)
Definition copy : M state unit :=
  fun p => match @copy_construct V throws pick hA hB cs (fst p) with
           | Ret d s => Ret tt (s, d)
           | Exn s => Exn (s, bset boxB (bget boxA s) (snd p))
           | UB => UB
           end.
(** histories of two containers with copies *)
Inductive reachc : state -> list node -> list node -> list node -> Prop :=
| rc_start n : reachc (@start2 V throws pick hA hB cs cs n) [] [] []
| rc_ret p la lb nh o r p' la' lb' nh' : reachc p la lb nh -> allowed2 p la lb nh o -> run2 o p = Ret r p' ->
    ledger2 o (Some r) p' la lb nh = (la', lb', nh') -> reachc p' la' lb' nh'
| rc_exn p la lb nh o p' la' lb' nh' : reachc p la lb nh -> allowed2 p la lb nh o -> run2 o p = Exn p' ->
    ledger2 o None p' la lb nh = (la', lb', nh') -> reachc p' la' lb' nh'
| rc_copy p la nh p' : reachc p la [] nh -> copy p = Ret tt p' -> reachc p' la (elems (seqB p')) nh
| rc_copy_exn p la nh p' : reachc p la [] nh -> copy p = Exn p' -> reachc p' la [] nh.

Hypothesis S2 : setting2.
Notation two := (@two V throws pick dv hA hB cs cs).
Notation ok2 := (@pair_ok V throws pick dv hA hB cs cs).
Notation S0 h := (spec h (fun _ (_ : unit) => False) (fun _ a => a) cs).
Notation amap := (@amap V hA hB).

Lemma two_header p a b la lb nh : two p a b la lb nh -> look (mem (bget boxA (fst p))) hB = Some None.
Proof. intros (E & _ & Gb). rewrite E. apply (i_hd (g_inv Gb)). Qed.

Lemma copy_two p a b la nh : two p a b la [] nh ->
  wp copy
     (fun _ p' => exists f, @copied V throws pick dv hA hB cs (fst p) a la nh (snd p') (fst p') f /\ two p' a (amap f cs a) la (map f la) nh)
     (fun p' => memory p' = memory p /\ blown throws (calls p) (calls p') /\ two p' a b la [] nh) p.
Proof.
  intros T. assert (T0 := T). destruct T0 as (E & Ga & Gb). destruct S2 as [Sa Sb Ne].
  assert (Oa := box_ok throws dv Sa). assert (Ob := box_ok throws dv Sb).
  assert (W := @copy_construct_ok V throws pick dv hA hB (s_pick Sa) cs Sa Sb (fst p) a la nh Ga (two_header T)).
  unfold wp, copy in *. destruct (copy_construct throws pick hA hB cs (fst p)) as [d s|s|]; auto.
  - destruct W as (f & C). exists f. cbn [fst snd]. split; auto. split; [|split]; cbn [fst snd].
    + apply (cd_one C).
    + apply (cd_src C).
    + eapply good_lk; [reflexivity| |exact (cd_dst C)]. perm.
  - destruct W as (t & -> & B). cbn [fst snd]. unfold Client.memory, Client.calls. rewrite (o_bb Oa). splits; auto.
    split; [|split]; cbn [fst snd]; rewrite ?(o_bb Oa).
    + now rewrite (o_bb Ob).
    + destruct Ga as [R I C A M]. split; rewrite ?(o_bb Oa), ?(o_cb Oa); auto; [now apply (o_repb Oa)|].
      destruct I as [I1 I2 I3 I4 I5]. split; auto.
    + destruct Gb as [R I C A M]. rewrite E. split; rewrite ?(o_bb Ob), ?(o_cb Ob); auto; [now apply (o_repb Ob)|].
      destruct I as [I1 I2 I3 I4 I5]. split; auto.
Qed.

Theorem reachc_ok p la lb nh : reachc p la lb nh -> ok2 p la lb nh.
Proof.
  induction 1 as [n|p la lb nh o r p' la' lb' nh' R IH A X E|p la lb nh o p' la' lb' nh' R IH A X E|p la nh p' R IH X|p la nh p' R IH X].
  - now apply start2_ok.
  - assert (Y := run2_ok S2 o IH A). unfold wp in Y. now rewrite X, E in Y.
  - assert (Y := run2_ok S2 o IH A). unfold wp in Y. now rewrite X, E in Y.
  - destruct IH as ((a & b & T) & Lv). assert (Y := copy_two T). unfold wp in Y. rewrite X in Y. destruct Y as (f & C & T').
    split.
    + exists a, (amap f cs a). destruct T' as (E & Ga & Gb). assert (Q := good_views throws pick cs Gb). rewrite Q.
      assert (P := i_perm (g_inv Gb)). assert (N := has_index (s2_b S2) (amap f cs a)). destruct (els (S0 hB) (amap f cs a)) as [|l r]; [easy|].
      inversion P as [|? ? H1 _]; subst. cbn [elems]. split; auto. split.
      * eapply good_lk; [reflexivity| |exact Ga]. now rewrite H1.
      * eapply good_lk; [symmetry; exact H1|reflexivity|exact Gb].
    + intros x I. destruct (Lv x I) as (v & L). exists v. rewrite (cd_old C); auto. right. apply in_or_app. right. now right.
  - destruct IH as ((a & b & T) & Lv). assert (Y := copy_two T). unfold wp in Y. rewrite X in Y. destruct Y as (M & _ & T'). split; eauto.
    intros x I. eapply live_mem; [symmetry; exact M|auto].
Qed.

(** C03, for histories in which containers are copied *)
Theorem C03_copies_consistent p la lb nh : reachc p la lb nh -> exists lsA lsB, sane2 p la lb nh lsA lsB.
Proof. intros R. destruct (reachc_ok R) as ((a & b & T) & Lv). do 2 eexists. eapply (two_sane S2); eauto. Qed.
Theorem C03_copies_defined p la lb nh : reachc p la lb nh ->
  (forall o, allowed2 p la lb nh o -> run2 o p <> UB) /\ (lb = [] -> copy p <> UB).
Proof.
  intros R. assert (K := reachc_ok R). split.
  - intros o A X. assert (Y := run2_ok S2 o K A). unfold wp in Y. now rewrite X in Y.
  - intros -> X. destruct K as ((a & b & T) & _). assert (Y := copy_two T). unfold wp in Y. now rewrite X in Y.
Qed.

(** C47.  [f] takes every element to its copy. *)
Theorem C47_copy p la nh lsA : reachc p la [] nh -> seqA p = Some lsA ->
  match copy p with
  | Ret _ p' => exists f,
      seqA p' = Some lsA /\ seqB p' = Some (map (map f) lsA) /\
      (forall x, In x la -> value_of p' (f x) = value_of p x) /\
      (forall x, In x (la ++ nh) -> value_of p' x = value_of p x) /\
      NoDup (map f la) /\ (forall x, In x la -> ~ In (f x) (map fst (memory p))) /\
      Permutation (map fst (memory p')) (map f la ++ map fst (memory p)) /\
      quiet throws (calls p) (calls p') /\
      sane2 p' la (map f la) nh lsA (map (map f) lsA)
  | Exn p' => memory p' = memory p /\ blown throws (calls p) (calls p') /\ seqA p' = Some lsA /\ countA p' = countA p
  | UB => False
  end.
Proof.
  intros R QA. destruct (reachc_ok R) as ((a & b & T) & Lv). assert (W := copy_two T). assert (T0 := T). destruct T0 as (_ & Ga & Gb).
  assert (Q := good_views throws pick cs Ga). assert (E : lsA = els (S0 hA) a) by congruence. subst lsA. unfold wp in W.
  destruct (copy p) as [u p'|p'|]; auto.
  - destruct W as (f & C & T'). exists f.
    assert (Lv' : forall x, In x nh -> live (bget boxA (fst p')) x).
    { intros x I. destruct (Lv x I) as (v & L). exists v. rewrite (cd_old C); auto. right. apply in_or_app. right. now right. }
    assert (Sn := two_sane S2 T' Lv'). rewrite amap_els in Sn. splits; auto.
    + apply (t_seqA Sn).
    + apply (t_seqB Sn).
    + apply (cd_val C).
    + intros x I. unfold Client.value_of, val. rewrite (cd_old C); auto. right. apply in_or_app. apply in_app_or in I as [I|I]; auto. right. now right.
    + apply (cd_inj C).
    + apply (cd_new C).
    + destruct T' as (_ & Ga' & _). unfold Client.memory. rewrite (g_mem Ga'), (g_mem Ga). perm.
    + apply (cd_tk C).
  - destruct W as (M & B & T'). splits; auto.
    + apply (good_views throws pick cs (proj1 (proj2 T'))).
    + unfold count. transitivity (length la); [apply (g_cnt (proj1 (proj2 T')))|symmetry; apply (g_cnt Ga)].
Qed.
End Props.

(** ** a concrete case: five indices, the elements 6 8 5 7 9 4 *)
Definition cs5 : list (code nat) := [ContEx.by_half; Sequenced nat 0 0; ContEx.hash_half; RandomAccess nat 0; ContEx.hash_id true].
Notation pick0 := ContEx.next_node.
Definition copy_ops : list (bool * op1 nat) :=
  map (fun v => (false, On (Insert (nat * iop nat) v None))) [6; 8; 5; 7; 9; 4].
Definition never (n : nat) : bool := false.
Definition at70 (n : nat) : bool := n =? 70.
Definition copy_state th := fst (play2 th pick0 1 2 cs5 cs5 copy_ops (start2 th pick0 1 2 cs5 cs5 0) ([], [], [])).
Lemma copy_setting : setting2 pick0 1 2 cs5 cs5.
Proof.
  split; [| |discriminate]; (split; [exact ContEx.next_node_ok| |easy|easy]);
  (repeat (constructor; [first [exact ContEx.nat_swo|apply ContEx.nat_heq|exact I|idtac]|])); try constructor.
Qed.
Lemma playc_reach th os : forall p l, @reachc nat th pick0 1 2 cs5 p (fst (fst l)) (snd (fst l)) (snd l) -> playable2 th pick0 1 2 cs5 cs5 os p l ->
    let q := play2 th pick0 1 2 cs5 cs5 os p l in @reachc nat th pick0 1 2 cs5 (fst q) (fst (fst (snd q))) (snd (fst (snd q))) (snd (snd q)).
Proof.
  induction os as [|o os IH]; intros p l R P; cbn [play2]; auto. destruct P as (A & P).
  destruct (run2 th pick0 1 2 cs5 cs5 o p) as [r p'|p'|] eqn:E; [| |easy].
  - apply IH; auto. unfold ledger_of. eapply rc_ret; [exact R|exact A|exact E|]. now destruct (ledger2 th pick0 1 2 cs5 cs5 _ _ _ _ _ _) as ((?, ?), ?).
  - apply IH; auto. unfold ledger_of. eapply rc_exn; [exact R|exact A|exact E|]. now destruct (ledger2 th pick0 1 2 cs5 cs5 _ _ _ _ _ _) as ((?, ?), ?).
Qed.
Lemma copy_reach th : th = never \/ th = at70 -> reachc th pick0 1 2 cs5 (copy_state th) [8; 7; 6; 5; 4; 3] [] [].
Proof.
  intros T.
  assert (P : playable2 th pick0 1 2 cs5 cs5 copy_ops (start2 th pick0 1 2 cs5 cs5 0) ([], [], [])).
  { destruct T as [-> | ->]; vm_compute; repeat split. }
  assert (Q := @playc_reach th copy_ops _ ([], [], []) (rc_start th pick0 1 2 cs5 0) P). cbv zeta in Q.
  assert (E : snd (play2 th pick0 1 2 cs5 cs5 copy_ops (start2 th pick0 1 2 cs5 cs5 0) ([], [], [])) = ([8; 7; 6; 5; 4; 3], [], [])) by (destruct T as [-> | ->]; vm_compute; reflexivity).
  rewrite E in Q. exact Q.
Qed.
Definition copy_seen th (o : out (St (box th pick0 1 cs5) * St (box th pick0 2 cs5)) unit) :=
  let look_at p := (sequences th pick0 1 cs5 (fst p), sequences th pick0 2 cs5 (snd p), map fst (memory th pick0 1 cs5 (fst p))) in
  match o with Ret _ p => (0, look_at p) | Exn p => (1, look_at p) | UB => (2, (None, None, [])) end.
(** the hypotheses of the theorem are met, and what happens: every element [x] has the copy given below, or copying the
    third element throws and everything is as before *)
Definition f5 (x : node) : node := match x with 3 => 11 | 4 => 13 | 5 => 9 | 6 => 12 | 7 => 14 | 8 => 10 | _ => 0 end.
Example copy_case :
  let ls := [[5; 8; 3; 6; 4; 7]; [3; 4; 5; 6; 7; 8]; [8; 5; 6; 3; 7; 4]; [3; 4; 5; 6; 7; 8]; [3; 4; 5; 6; 7; 8]] in
  setting2 pick0 1 2 cs5 cs5 /\
  (forall th, th = never \/ th = at70 -> reachc th pick0 1 2 cs5 (copy_state th) [8; 7; 6; 5; 4; 3] [] []) /\
  copy_seen (Ret tt (copy_state at70)) = (0, (Some ls, Some [[]; []; []; []; []], [8; 7; 6; 5; 4; 3; 1; 2])) /\
  copy_seen (copy never pick0 1 2 cs5 (copy_state never)) =
    (0, (Some ls, Some (map (map f5) ls), [14; 13; 12; 11; 10; 9; 8; 7; 6; 5; 4; 3; 1; 2])) /\
  copy_seen (copy at70 pick0 1 2 cs5 (copy_state at70)) = (1, (Some ls, Some [[]; []; []; []; []], [8; 7; 6; 5; 4; 3; 1; 2])).
Proof. intros ls. splits; [exact copy_setting|exact copy_reach|vm_compute; reflexivity..]. Qed.

Print Assumptions C03_copies_consistent.
Print Assumptions C03_copies_defined.
Print Assumptions C47_copy.
