(** Histories of operations on a container, as seen by its client. *)
From Verif Require Import Prelude Layer LayerBase Container ContOk.
Set Implicit Arguments.

Section H.
Variable V : Type.
Variable throws : nat -> bool.
Variable pick : list node -> node.
Variable dv : V.
Variable hd : node.
Variable L : Layer V.

(** operations of the single indices which leave the elements alone *)
Variable iop : Type.
Variable iexec : iop -> M (St L) unit.
Variable iallowed : St L -> iop -> Prop.

(** Operations.  [Call] is a call to user code (a predicate, say) which may throw.  Positions are given as nodes; a node handle owning x is called x. *)
Inductive op :=
| Insert (v : V) (hint : option node)
| Emplace (v : V) (hint : option node)
| Erase (x : node)
| Extract (x : node)
| InsertNh (x : node) (hint : option node)
| DropNh (x : node)
| Replace (v : V) (x : node)
| Modify (f fx : V -> V) (x : node)
| ModifyRb (f fx g gx : V -> V) (x : node)
| Clear
| Index (o : iop)
| Call.
(** what the caller gets *)
Inductive res := Pair (x : node) (b : bool) | Flag (b : bool) | Nothing.

Definition exec (o : op) : M (St L) res :=
  match o with
  | Insert v h => r <- c_insert L v h ;; ret (Pair (fst r) (snd r))
  | Emplace v h => r <- c_emplace throws pick L v h ;; ret (Pair (fst r) (snd r))
  | Erase x => c_erase L x ;;; ret Nothing
  | Extract x => c_extract L x ;;; ret Nothing
  | InsertNh x h => r <- c_insert_nh hd L (Some x) h ;; ret (Pair (fst (fst r)) (snd (fst r)))
  | DropNh x => nh_destroy L (Some x) ;;; ret Nothing
  | Replace v x => b <- c_replace L v x ;; ret (Flag b)
  | Modify f fx x => b <- c_modify throws L f fx x ;; ret (Flag b)
  | ModifyRb f fx g gx x => b <- c_modify_rb throws L f fx g gx x ;; ret (Flag b)
  | Clear => c_clear L ;;; ret Nothing
  | Index o => iexec o ;;; ret Nothing
  | Call => basM L (tick throws) ;;; ret Nothing
  end.

(** The client's ledger: the elements [lk] it knows to be in the container and the nodes [nh] owned by
    its handles. *)
Definition allowed (s : St L) (lk nh : list node) (o : op) : Prop :=
  match o with
  | Insert _ h | Emplace _ h => hint_ok hd h lk
  | Erase x | Extract x | Replace _ x | Modify _ _ x => In x lk
  | ModifyRb f _ g _ x => In x lk /\ forall v, g (f v) = v
  | InsertNh x h => In x nh /\ hint_ok hd h lk
  | DropNh x => In x nh
  | Clear | Call => True
  | Index o => iallowed s o
  end.
Notation rem := (remove Nat.eq_dec).
(** What the documentation says about the elements after a normal return of [r]
    ([Some r]) or an exception ([None]).  (For modify with rollback this is what the code
    does, see C09.) *)
Definition ledger (o : op) (r : option res) (lk nh : list node) : list node * list node :=
  match o, r with
  | Insert _ _, Some (Pair x true) | Emplace _ _, Some (Pair x true) => (x :: lk, nh)
  | Erase x, Some _ => (rem x lk, nh)
  | Extract x, Some _ => (rem x lk, x :: nh)
  | InsertNh x _, Some (Pair _ true) => (x :: lk, rem x nh)
  | DropNh x, Some _ => (lk, rem x nh)
  | Modify _ _ x, Some (Flag false) | Modify _ _ x, None => (rem x lk, nh)
  | ModifyRb _ _ _ _ x, None => (rem x lk, nh)
  | Clear, Some _ => ([], nh)
  | _, _ => (lk, nh)
  end.

(** states reachable from [init] with the ledger *)
Inductive reach (init : St L -> Prop) : St L -> list node -> list node -> Prop :=
| reach_init s : init s -> reach init s [] []
| reach_ret s lk nh o r s' : reach init s lk nh -> allowed s lk nh o -> exec o s = Ret r s' ->
    reach init s' (fst (ledger o (Some r) lk nh)) (snd (ledger o (Some r) lk nh))
| reach_exn s lk nh o s' : reach init s lk nh -> allowed s lk nh o -> exec o s = Exn s' ->
    reach init s' (fst (ledger o None lk nh)) (snd (ledger o None lk nh)).

Hypothesis pick_ok : forall l, ~ In (pick l) (null :: l).
Variable S : Spec V.
Variable rep : St L -> AV S -> Prop.
Variable shell : St L -> Prop.
Hypothesis O : OK throws pick dv hd L S rep shell.
Hypothesis has_index : forall a, els S a <> [].
Hypothesis ready_em : forall x a, aready S Emplaced x a.
Notation good := (@good V dv hd L S rep).
Hypothesis iexec_ok : forall s a lk out o, good s a lk out -> iallowed s o ->
  wp (iexec o) (fun _ s' => mem (bget L s') = mem (bget L s) /\ exists a', good s' a' lk out)
     (fun s' => mem (bget L s') = mem (bget L s) /\ exists a', good s' a' lk out) s.

Definition state_ok (s : St L) (lk nh : list node) : Prop :=
  (exists a, good s a lk nh) /\ forall x, In x nh -> live (bget L s) x.

Lemma live_perm (b b' : bst V) x : look (mem b') x = look (mem b) x -> live b x -> live b' x.
Proof. unfold live. intros ->. auto. Qed.

Lemma rem_perm x (l : list node) : NoDup l -> In x l -> Permutation l (x :: rem x l).
Proof.
  intros N I. apply in_split in I as (l1 & l2 & ->). rewrite remove_mid by auto. symmetry. apply Permutation_middle.
Qed.

(** The same in a memory which contains other nodes [ext], of another container, say; they are left alone. *)
Definition state_in (s : St L) (lk nh ext : list node) : Prop :=
  (exists a, good s a lk (nh ++ ext)) /\ forall x, In x nh -> live (bget L s) x.
Definition alone (ext : list node) (s s' : St L) : Prop :=
  forall x, In x ext -> look (mem (bget L s')) x = look (mem (bget L s)) x.

Lemma exec_in s lk nh ext o : state_in s lk nh ext -> allowed s lk nh o ->
  wp (exec o)
     (fun r s' => state_in s' (fst (ledger o (Some r) lk nh)) (snd (ledger o (Some r) lk nh)) ext /\ alone ext s s')
     (fun s' => state_in s' (fst (ledger o None lk nh)) (snd (ledger o None lk nh)) ext /\ alone ext s s') s.
Proof.
  intros ((a & G) & Lv) Al.
  assert (N := good_nodup G). rewrite !NoDup_cons_iff, !NoDup_app_iff in N. cbn in N. rewrite !in_app_iff in N.
  destruct N as (N1 & N2 & N3 & (N4 & N4' & N4'') & N5).
  assert (N6 : forall x, In x lk -> ~ In x ext) by (intros x I J; apply (N5 x); rewrite ?in_app_iff; auto).
  assert (N5' : forall x, In x lk -> ~ In x nh) by (intros x I J; apply (N5 x); rewrite ?in_app_iff; auto).
  assert (AR : forall s', mem (bget L s') = mem (bget L s) -> alone ext s s') by (intros s' M x _; now rewrite M).
  assert (AA : forall s' y v, mem (bget L s') = (y, v) :: mem (bget L s) -> ~ In y (map fst (mem (bget L s))) -> alone ext s s').
  { intros s' y v M Ny x I. rewrite M. cbn. destruct (Nat.eqb_spec x y) as [->|]; auto. exfalso. apply Ny.
    eapply Permutation_in; [symmetry; exact (g_mem G)|]. right. rewrite !in_app_iff. auto. }
  assert (AD : forall s' y, mem (bget L s') = mdel (mem (bget L s)) y -> ~ In y ext -> alone ext s s').
  { intros s' y M Iy x I. rewrite M, look_mdel. destruct (Nat.eqb_spec x y) as [->|]; auto. contradiction. }
  assert (AS : forall s' y v, mem (bget L s') = mset (mem (bget L s)) y (Some v) -> ~ In y ext -> alone ext s s').
  { intros s' y v M Iy x I. rewrite M, look_mset. destruct (Nat.eqb_spec x y) as [->|]; auto. contradiction. }
  assert (KM : forall s', mem (bget L s') = mem (bget L s) -> forall x, In x nh -> live (bget L s') x).
  { intros s' M x I. eapply live_mem; [symmetry; exact M|auto]. }
  assert (KA : forall s' y v, mem (bget L s') = (y, v) :: mem (bget L s) -> ~ In y (map fst (mem (bget L s))) ->
     forall x, In x nh -> live (bget L s') x).
  { intros s' y v M Ny x I. destruct (Lv x I) as (w & Lk). exists w. rewrite M. cbn.
    destruct (Nat.eqb_spec x y) as [->|]; auto. exfalso. apply Ny. apply look_in, (in_map fst) in Lk. exact Lk. }
  assert (KD : forall s' y, mem (bget L s') = mdel (mem (bget L s)) y -> In y lk ->
     forall x, In x nh -> live (bget L s') x).
  { intros s' y M Iy x I. destruct (Lv x I) as (w & Lk). exists w. rewrite M, look_mdel.
    destruct (Nat.eqb_spec x y) as [->|]; auto. exfalso. now apply (N5' y). }
  assert (KS : forall s' y v, mem (bget L s') = mset (mem (bget L s)) y (Some v) ->
     forall x, In x nh -> live (bget L s') x).
  { intros s' y v M x I. destruct (Lv x I) as (w & Lk). unfold live. rewrite M, look_mset.
    destruct (Nat.eqb_spec x y) as [->|]; [rewrite Lk|]; eauto. }
  assert (KK : forall s', @kept V dv hd L S rep s s' a lk (nh ++ ext) -> state_in s' lk nh ext /\ alone ext s s').
  { intros s' (M & a' & G' & _). split; [split|]; eauto. }
  assert (KG : forall s' y, In y lk -> @gone V dv hd L S rep s s' a lk (nh ++ ext) y -> state_in s' (rem y lk) nh ext /\ alone ext s s').
  { intros s' y Iy (M & G'). split; [split|]; eauto. }
  destruct o; cbn [exec allowed] in *.
  - apply wp_bind. eapply wp_conseq; [eapply insert_spec; eauto| |].
    + intros (x, b) s' (_ & R). apply wp_ret. cbn [fst snd] in *. destruct b; cbn.
      * destruct R as (Nx & M & _ & _ & _ & a' & G' & _). split; [split|]; eauto.
      * apply KK, R.
    + intros s' (_ & R). now apply KK.
  - apply wp_bind. eapply wp_conseq; [eapply emplace_spec; eauto| |].
    + intros (x, b) s' (_ & R). apply wp_ret. cbn [fst snd] in *. destruct b; cbn.
      * destruct R as (Nx & M & _ & _ & _ & a' & G' & _). split; [split|]; eauto.
      * apply KK, R.
    + intros s' (_ & R). now apply KK.
  - apply wp_bind. eapply erase_spec; eauto. intros s' G' _ M'. apply wp_ret. cbn. split; [split|]; eauto.
  - apply wp_bind. eapply wp_conseq; [eapply extract_spec; eauto| |easy].
    intros r s' (_ & B & G'). apply wp_ret. cbn. split; [split|]; eauto.
    + intros y [<-|I]; rewrite B; auto. now apply (i_live (g_inv G)).
    + apply AR. now rewrite B.
  - destruct Al as (Ix & Hh). assert (P := rem_perm x N4 Ix).
    assert (P' : Permutation (nh ++ ext) (x :: rem x nh ++ ext)) by (rewrite P at 1; reflexivity).
    assert (G2 := good_perm P' G). apply wp_bind. eapply wp_conseq; [eapply insert_nh_spec; eauto| |].
    + intros ((r, b), h) s' (_ & M & R). apply wp_ret. cbn [fst snd] in *. destruct b; cbn.
      * destruct R as (_ & _ & _ & _ & _ & a' & G' & _). split; [split|]; eauto. intros y I. apply in_remove in I.
        apply KM; tauto.
      * destruct R as (_ & _ & _ & _ & a' & G' & _). split; [split|]; auto. exists a'; eapply good_perm; [symmetry; exact P'|auto].
    + intros s' (_ & M & a' & G' & _). cbn. split; [split|]; auto. exists a'; eapply good_perm; [symmetry; exact P'|auto].
  - assert (P := rem_perm x N4 Al). assert (P' : Permutation (nh ++ ext) (x :: rem x nh ++ ext)) by (rewrite P at 1; reflexivity).
    assert (G2 := good_perm P' G). apply wp_bind. cbn [nh_destroy].
    eapply wp_delete; [apply (live_val dv (Lv _ Al))|]. apply wp_ret. cbn. split; [split|].
    + exists a. eapply good_del; eauto.
      * apply (o_repb O), G.
      * apply (o_cb O).
      * now rewrite (o_bb O).
    + intros y I. apply in_remove in I as (I & Ny). rewrite (o_bb O). destruct (Lv y I) as (w & Lk). exists w. cbn.
      rewrite look_mdel. destruct (Nat.eqb_spec y x); congruence.
    + apply (AD _ x); [now rewrite (o_bb O)|]. intros J. now apply (N4'' x).
  - apply wp_bind. eapply wp_conseq; [eapply replace_spec; eauto| |].
    + intros [|] s' (_ & R); apply wp_ret; cbn.
      * destruct R as (M & _ & a' & G' & _). split; [split|]; eauto.
      * destruct R as (M & G' & _). split; [split|]; eauto.
    + intros s' (_ & M & G'). cbn. split; [split|]; eauto.
  - apply wp_bind. eapply wp_conseq; [eapply modify_spec; eauto| |].
    + intros [|] s' (_ & R); apply wp_ret; cbn.
      * destruct R as (M & _ & a' & G' & _). split; [split|]; eauto.
      * apply KG; auto. apply R.
    + intros s' (_ & R). now apply KG.
  - destruct Al as (Ix & Bk). apply wp_bind. eapply wp_conseq; [eapply modify_rb_spec; eauto| |].
    + left. rewrite Bk. eapply fits_same; eauto.
    + intros [|] s' (_ & R); apply wp_ret; cbn.
      * destruct R as (M & _ & a' & G' & _). split; [split|]; eauto.
      * destruct R as (_ & [(_ & M & G')|(F & _)]); [split; [split|]; eauto|].
        exfalso. apply F. rewrite Bk. eapply fits_same; eauto.
    + intros s' (_ & _ & R). now apply KG.
  - apply wp_bind. eapply wp_conseq; [eapply clear_spec; eauto| |easy].
    intros _ s' (_ & M & a' & G' & _). apply wp_ret. cbn. split; [split|]; eauto.
    + intros x I. eapply live_perm; [|apply Lv, I]. rewrite M. apply look_without. intros J. now apply (N5' x).
    + intros x I. rewrite M. apply look_without. intros J. now apply (N6 x).
  - apply wp_bind. eapply wp_conseq; [eapply iexec_ok; eauto| |].
    + intros _ s' (M & a' & G'). apply wp_ret. cbn. split; [split|]; eauto.
    + intros s' (M & a' & G'). cbn. split; [split|]; eauto.
  - assert (KT : state_in (adv L (Datatypes.S (tk (bget L s))) s) lk nh ext /\ alone ext s (adv L (Datatypes.S (tk (bget L s))) s)).
    { split; [split|].
      - exists a. eapply (good_adv O); [exact G|apply (o_repb O), G|apply (o_cb O)|]. unfold adv. now rewrite (o_bb O).
      - apply KM. unfold adv. now rewrite (o_bb O).
      - apply AR. unfold adv. now rewrite (o_bb O). }
    apply wp_bind, wp_lens. unfold wp, tick. destruct (throws (tk (bget L s))); [exact KT|]. apply wp_ret. exact KT.
Qed.
Lemma state_in_nil s lk nh : state_in s lk nh [] <-> state_ok s lk nh.
Proof. unfold state_in, state_ok. now rewrite app_nil_r. Qed.
Lemma exec_ok s lk nh o : state_ok s lk nh -> allowed s lk nh o ->
  wp (exec o)
     (fun r s' => state_ok s' (fst (ledger o (Some r) lk nh)) (snd (ledger o (Some r) lk nh)))
     (fun s' => state_ok s' (fst (ledger o None lk nh)) (snd (ledger o None lk nh))) s.
Proof.
  intros H A. apply state_in_nil in H. eapply wp_conseq; [apply (exec_in o H A)| |]; cbn beta.
  - intros r s' (H' & _). now apply state_in_nil.
  - intros s' (H' & _). now apply state_in_nil.
Qed.

Theorem reach_ok (init : St L -> Prop) :
  (forall s, init s -> state_ok s [] []) ->
  forall s lk nh, reach init s lk nh -> state_ok s lk nh.
Proof.
  intros I0 s lk nh R. induction R as [s I|s lk nh o r s' R IH A X|s lk nh o s' R IH A X].
  - auto.
  - assert (W := exec_ok o IH A). unfold wp in W. now rewrite X in W.
  - assert (W := exec_ok o IH A). unfold wp in W. now rewrite X in W.
Qed.
Theorem reach_safe (init : St L -> Prop) :
  (forall s, init s -> state_ok s [] []) ->
  forall s lk nh o, reach init s lk nh -> allowed s lk nh o -> exec o s <> UB.
Proof.
  intros I0 s lk nh o R A X. assert (W := exec_ok o (reach_ok I0 R) A). unfold wp in W. now rewrite X in W.
Qed.
End H.
