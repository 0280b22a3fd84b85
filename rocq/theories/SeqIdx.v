(** Sequenced indices over their super layer.
    Source: /repo/include/boost/multi_index/sequenced_index.hpp *)
From Verif Require Import Prelude SeqModel SeqSpec SeqHeap SeqProofs SeqMore Layer LayerBase PosIdx PosOk.
Set Implicit Arguments.

Section SeqIdx.
Variable V : Type.
Variable hd : node.            (* header() *)
Variable jn jp : node.         (* contents of the link fields of a node before it is linked *)
Variable L : Layer V.          (* super *)
Notation QM := (M (sst * St L)).

(** a node comes with arbitrary link fields *)
Definition q_place (x : node) : SM unit :=
  fun s => Ret tt (mkS (upd (nx s) x (Some jn)) (upd (pr s) x (Some jp)) (SeqModel.tk s) (fil s)).
(** link(x), sequenced_index.hpp:914-917 *)
Definition q_link (x : node) : SM unit := q_place x ;;; link x hd.
(** delete_all_nodes_, sequenced_index.hpp:769-777 *)
Fixpoint q_del_loop (fuel : nat) (x : node) : QM unit :=
  match fuel with
  | O => ub
  | S f =>
    if x =? hd then ret tt
    else
      y <- ownM (get_next x) ;;
      supM (basM L (delete_node x)) ;;; ownM (free x) ;;;
      q_del_loop f y
  end.
Definition q_delete_all_ : QM unit :=
  n <- supM (size L) ;; x <- ownM (get_next hd) ;; q_del_loop (n + 1) x.

Definition sequenced : Layer V :=
  positional L (ret tt) q_link unlink q_delete_all_ (empty_initialize hd).

(** ** correctness *)
Variable throws : nat -> bool.
Variable pick : list node -> node.
Variable dv : V.
Hypothesis pick_ok : forall l, ~ In (pick l) (null :: l).
Variable S : Spec V.
Variable rep : St L -> AV S -> Prop.
Variable shell : St L -> Prop.
Hypothesis O : OK throws pick dv hd L S rep shell.

(** the links of the index represent the sequence [l] *)
Definition seq_has (s : sst) (l : list node) : Prop := wf s [hd :: l] [].
Definition seq_shell (s : sst) : Prop := alloc s hd.
Definition seq_rep := @pos_rep V L S rep sst seq_has.
Definition seqs_shell := @pos_shell V L shell sst seq_shell.

Lemma seq_has_nd s l : seq_has s l -> NoDup (hd :: l).
Proof. intros (_ & N & _). cbn in N. rewrite !app_nil_r in N. exact N. Qed.

Lemma wf_place s l x : seq_has s l -> ~ In x (hd :: l) ->
  wf (mkS (upd (nx s) x (Some jn)) (upd (pr s) x (Some jp)) (SeqModel.tk s) (fil s)) [hd :: l] [x].
Proof.
  intros H N. assert (ND := seq_has_nd H). destruct H as (R & _ & _). inversion R as [|? ? R1 _]; subst. split; [|split].
  - constructor; [|constructor]. eapply ring_frame; [exact R1|]. intros a I. cbn [nx pr].
    rewrite !upd_neq; auto; intros ->; auto.
  - cbn. rewrite app_nil_r. eapply NoDup_perm; [|constructor; [exact N|exact ND]]. perm.
  - constructor; [|constructor]. split; cbn; rewrite upd_eq; eauto.
Qed.

Lemma q_del_loop_ok : forall l t s fuel,
  (forall l1 y l2, l = l1 ++ y :: l2 -> nx t y = Some (List.hd hd l2)) ->
  NoDup (hd :: l) -> length l < fuel -> alloc t hd ->
  NoDup (map fst (mem (bget L s))) ->
  (forall y, In y l -> live (bget L s) y) ->
  wp (q_del_loop fuel (List.hd hd l))
     (fun _ st => alloc (fst st) hd /\
        snd st = bset L (mkB (without l (mem (bget L s))) (tk (bget L s))) s)
     (fun _ => False) (t, s).
Proof.
  induction l as [|x l IH]; intros t s fuel F N Fu A ND LV; (destruct fuel as [|fuel]; [cbn in Fu; lia|]);
    cbn [q_del_loop List.hd].
  - rewrite Nat.eqb_refl. apply wp_ret. cbn [fst snd]. split; auto. rewrite without_nil.
    replace (mkB (mem (bget L s)) (tk (bget L s))) with (bget L s) by now destruct (bget L s).
    now rewrite (o_gs O).
  - inversion N as [|? ? N1 N2]; subst. inversion N2 as [|? ? N3 N4]; subst.
    destruct (Nat.eqb_spec x hd) as [->|D]; [cbn in N1; tauto|].
    assert (Fx := F [] x l eq_refl).
    apply wp_bind, wp_own. unfold wp at 1, get_next. rewrite Fx. apply wp_pdel; [apply LV; now left|].
    apply wp_bind, wp_own. unfold wp at 1, free. rewrite Fx.
    eapply wp_conseq; [apply IH| |easy].
    + intros l1 y l2 ->. cbn. rewrite upd_neq; [apply (F (x :: l1)); reflexivity|].
      intros ->. apply N3. rewrite in_app_iff. cbn. auto.
    + constructor; [|auto]. intros I. apply N1. now right.
    + cbn in Fu. lia.
    + destruct A as ((a & A1) & (b & A2)). split; cbn; rewrite upd_neq; eauto.
    + rewrite (o_bb O). cbn [mem]. rewrite fst_mdel. apply remove_nodup, ND.
    + intros y I. rewrite (o_bb O). destruct (LV y) as (v & Lk); [now right|]. exists v. cbn [mem].
      rewrite look_mdel. destruct (Nat.eqb_spec y x); [subst; tauto|auto].
    + intros u (t', s') (A' & E). cbn [fst snd] in *. split; auto. subst s'. rewrite (o_bb O), (o_ss O). cbn [mem tk].
      f_equal. f_equal. symmetry. apply without_cons.
Qed.

Theorem sequenced_ok : OK throws pick dv hd sequenced (cons_spec (pos_kind V) S) seq_rep seqs_shell.
Proof.
  apply pos_ok with (room := fun _ => True); auto.
  - exact seq_has_nd.
  - intros t l H. eapply wf_alloc; [exact H|]. cbn. auto.
  - intros t l s H. apply wp_ret. exists t, (tk (bget L s)). splits; auto.
    + unfold adv. replace (mkB (mem (bget L s)) (tk (bget L s))) with (bget L s) by now destruct (bget L s).
      now rewrite (o_gs O).
    + apply quiet_refl.
  - intros t l x H _ N. unfold q_link. apply wp_bind. unfold wp at 1, q_place.
    destruct (link_spec _ hd x l [] [] (wf_place H (fun i => N (or_intror i)))) as (s' & E & W & _).
    unfold wp. rewrite E. exact W.
  - intros t l1 x l2 H. destruct (unlink_at t hd l1 x l2 [] [] H) as (s' & E & W & _).
    unfold wp. rewrite E. unfold seq_has. now apply wf_loose_drop with (l1 := [x]).
  - intros t s l H Sz ND LV. unfold q_delete_all_. apply wp_bind, wp_sup. unfold wp at 1, size.
    assert (B := begin_at _ _ _ _ _ H). apply wp_bind, wp_own. unfold wp at 1, get_next. rewrite B.
    apply q_del_loop_ok; auto.
    + intros l1 y l2 ->. apply (next_at t hd l1 l2 [] [] y H).
    + now apply seq_has_nd in H.
    + unfold node in *. lia.
    + eapply wf_alloc; [exact H|]. cbn. auto.
  - intros t A. destruct (init_spec t hd [] []) as (s' & E & W & _).
    + split; [constructor|split; [|constructor; auto]]. cbn. constructor; [easy|constructor].
    + unfold wp. rewrite E. exact W.
Qed.
End SeqIdx.
