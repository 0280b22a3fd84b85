(** Random access indices over their super layer.
    Source: /repo/include/boost/multi_index/random_access_index.hpp *)
From Verif Require Import Prelude Layer LayerBase PosIdx PosOk RndModel RndProofs RndRot RndOps RndMore.
Set Implicit Arguments.

Section RndIdx.
Variable V : Type.
Variable throws : nat -> bool.
Variable hd : node.            (* header() *)
Variable ju : nat.             (* contents of up() of a node before it is linked *)
Variable L : Layer V.          (* super *)
Notation NM := (M (rst * St L)).

(** the calls which may throw made by the array are counted together with all others *)
Definition sync {A} (m : RM A) : NM A :=
  fun st => match m (adv_tk (fst st) (tk (bget L (snd st)))) with
            | Ret a t => Ret a (t, adv L (rtk t) (snd st))
            | Exn t => Exn (t, adv L (rtk t) (snd st))
            | UB => UB
            end.
(** a node comes with an arbitrary pointer up() *)
Definition n_place (x : node) : RM unit :=
  fun r => Ret tt (mkR (slot r) (upd (rup r) x (Some ju)) (rsz r) (rcap r) (rbs r) (rbrk r) (rtk r)).
(** ... and ceases to have one when deleted *)
Definition n_free (x : node) : RM unit :=
  fun r => match rup r x with
           | Some _ => Ret tt (mkR (slot r) (upd (rup r) x None) (rsz r) (rcap r) (rbs r) (rbrk r) (rtk r))
           | None => UB
           end.
(** ptrs.push_back, 826-845 *)
Definition n_link (x : node) : RM unit := n_place x ;;; push_back x.
(** delete_all_nodes_, 858-864: [c] more rounds *)
Fixpoint n_del_loop (c x : nat) : NM unit :=
  match c with
  | O => ret tt
  | S c => y <- ownM (rd x) ;; supM (basM L (delete_node y)) ;;; ownM (n_free y) ;;; n_del_loop c (x + 1)
  end.
Definition n_delete_all_ : NM unit := b <- ownM a_begin ;; n <- ownM get_sz ;; n_del_loop n b.

Definition random_access : Layer V :=
  positional L (sync (room_for_one throws)) n_link erase n_delete_all_ a_clear.

(** ** correctness *)
Variable pick : list node -> node.
Variable dv : V.
Hypothesis pick_ok : forall l, ~ In (pick l) (null :: l).
Variable S : Spec V.
Variable rep : St L -> AV S -> Prop.
Variable shell : St L -> Prop.
Hypothesis O : OK throws pick dv hd L S rep shell.

(** the array of the index represents the sequence [l] *)
Definition rnd_has (r : rst) (l : list node) : Prop := arr r (l ++ [hd]).
(** what is needed of an array which is about to be cleared *)
Record rnd_shell (r : rst) : Prop := mkRS {
  rs_end : slot r (rbs r + rsz r) = Some hd; rs_up : rup r hd <> None; rs_nn : hd <> null;
  rs_cap : rsz r <= rcap r; rs_all : forall i, i <= rcap r -> slot r (rbs r + i) <> None;
  rs_brk : rbs r + rcap r < rbrk r; rs_new : forall p, rbrk r < p -> slot r p = None }.
Definition rnd_rep := @pos_rep V L S rep rst rnd_has.
Definition rnds_shell := @pos_shell V L shell rst rnd_shell.

Lemma rnd_has_nd r l : rnd_has r l -> NoDup (hd :: l).
Proof. intros A. eapply NoDup_perm; [|apply (a_nd A)]. perm. Qed.
Lemma rnd_has_shell r l : rnd_has r l -> rnd_shell r.
Proof.
  intros A. assert (Ln := a_len A). rewrite app_length in Ln. cbn in Ln. split; [| | |apply A..].
  - replace (rsz r) with (length l) by lia. apply (arr_mid A).
  - apply (arr_in hd A). rewrite in_app_iff. cbn. auto.
  - intros E. apply (a_nn A). rewrite in_app_iff. cbn. auto.
Qed.
Lemma clear_shell r : rnd_shell r -> exists r', a_clear r = Ret tt r' /\ rnd_has r' [].
Proof.
  intros [E U NN C Al Bk Nw]. exists (with_sz (put_st r (rbs r) hd) 0). split.
  { unfold a_clear, bind, a_begin, a_end, rd at 1. rewrite E. unfold wr.
    assert (A0 := Al 0 (Nat.le_0_l _)). rewrite Nat.add_0_r in A0. destruct (slot r (rbs r)); [|easy].
    unfold rd. cbn. rewrite upd_eq. unfold set_up. cbn. destruct (rup r hd); [reflexivity|easy]. }
  split; cbn; auto.
  - intros [|i] x Ex; [|destruct i; discriminate]. injection Ex as <-. rewrite Nat.add_0_r. apply upd_eq.
  - intros [|i] x Ex; [|destruct i; discriminate]. injection Ex as <-. rewrite Nat.add_0_r. apply upd_eq.
  - lia.
  - intros i Li. unfold upd. destruct (_ =? _); [easy|auto].
  - intros p Lp. rewrite upd_neq; [auto|lia].
  - constructor; [easy|constructor].
  - intuition.
Qed.

Lemma n_del_loop_ok : forall l2 l1 r s b,
  rnd_shell r -> (forall i x, nth_error (l1 ++ l2) i = Some x -> slot r (b + i) = Some x) ->
  (forall x, In x l2 -> rup r x <> None) -> NoDup (hd :: l2) ->
  NoDup (map fst (mem (bget L s))) ->
  (forall y, In y l2 -> live (bget L s) y) ->
  wp (n_del_loop (length l2) (b + length l1))
     (fun _ st => rnd_shell (fst st) /\
        snd st = bset L (mkB (without l2 (mem (bget L s))) (tk (bget L s))) s)
     (fun _ => False) (r, s).
Proof.
  induction l2 as [|x l2 IH]; intros l1 r s b RS Sl Up N ND LV; cbn [length n_del_loop].
  - apply wp_ret. cbn [fst snd]. split; auto. rewrite without_nil.
    replace (mkB (mem (bget L s)) (tk (bget L s))) with (bget L s) by now destruct (bget L s).
    now rewrite (o_gs O).
  - inversion N as [|? ? N1 N2]; subst. inversion N2 as [|? ? N3 N4]; subst.
    assert (Sx : slot r (b + length l1) = Some x) by (apply Sl; rewrite nth_app_r, Nat.sub_diag by lia; reflexivity).
    apply wp_bind, wp_own. unfold wp at 1, rd. rewrite Sx. apply wp_pdel; [apply LV; now left|].
    apply wp_bind, wp_own. unfold wp at 1, n_free. destruct (rup r x) eqn:Ux; [|now apply (Up x (or_introl eq_refl))].
    replace (b + length l1 + 1) with (b + length (l1 ++ [x])) by (rewrite app_length; cbn; lia).
    eapply wp_conseq; [apply (IH (l1 ++ [x]))| |easy].
    + destruct RS as [E U NN C Al Bk Nw]. split; cbn; auto. rewrite upd_neq; auto. intros ->. apply N1. left; auto.
    + intros i z Ez. rewrite <- app_assoc in Ez. apply Sl. exact Ez.
    + intros y Iy. cbn. rewrite upd_neq by (intros ->; auto). apply Up. now right.
    + constructor; [|auto]. intros I. apply N1. now right.
    + rewrite (o_bb O). cbn [mem]. rewrite fst_mdel. apply remove_nodup, ND.
    + intros y I. rewrite (o_bb O). destruct (LV y) as (v & Lk); [now right|]. exists v. cbn [mem].
      rewrite look_mdel. destruct (Nat.eqb_spec y x); [subst; tauto|auto].
    + intros u (t', s') (A' & E). cbn [fst snd] in *. split; auto. subst s'. rewrite (o_bb O), (o_ss O). cbn [mem tk].
      f_equal. f_equal. symmetry. apply without_cons.
Qed.

Theorem random_access_ok : OK throws pick dv hd random_access (cons_spec (pos_kind V) S) rnd_rep rnds_shell.
Proof.
  apply pos_ok with (room := fun r => rsz r < rcap r); auto.
  - exact rnd_has_nd.
  - exact rnd_has_shell.
  - intros t l s H. assert (A : arr (adv_tk t (tk (bget L s))) (l ++ [hd])) by now apply arr_tk.
    assert (W := room_for_one_ok throws A). unfold wp in *. unfold sync. cbn [fst snd].
    destruct (room_for_one throws (adv_tk t (tk (bget L s)))) as [[] t'|t'|]; auto.
    + destruct W as (Q & (A' & _) & R). exists t', (rtk t'). auto.
    + destruct W as (T & ->). exists (adv_tk (adv_tk t (tk (bget L s))) (Datatypes.S (tk (bget L s)))), (Datatypes.S (tk (bget L s))).
      splits; auto; [now apply arr_tk|now apply blown_S].
  - intros t l x H R N. unfold n_link. apply wp_bind. unfold wp at 1, n_place. cbn in N.
    set (t1 := mkR (slot t) (upd (rup t) x (Some ju)) (rsz t) (rcap t) (rbs t) (rbrk t) (rtk t)).
    assert (Nl : ~ In x (l ++ [hd])) by (rewrite in_app_iff; cbn; intuition congruence).
    assert (A1 : arr t1 (l ++ [hd])).
    { destruct H as [A1 A2 A3 A4 A5 A6 A7 A8 A9]. split; auto. intros i z E. cbn. rewrite upd_neq; [now apply A2|].
      intros ->. apply Nl. now apply nth_error_In in E. }
    destruct (@push_back_ok t1 l hd x A1) as (r' & E & A' & _); auto.
    + cbn. rewrite upd_eq. easy.
    + unfold wp. rewrite E. unfold rnd_has. now rewrite <- app_assoc.
  - intros t l1 x l2 H. unfold rnd_has in *. rewrite <- app_assoc in H. cbn [app] in H.
    eapply wp_conseq; [apply (erase_ok _ _ _ _ H)| |easy]. intros ? r' (A & _). now rewrite <- app_assoc.
  - intros t s l H Sz ND LV. unfold n_delete_all_. apply wp_bind, wp_own. unfold wp at 1, a_begin.
    apply wp_bind, wp_own. unfold wp at 1, get_sz. assert (Ln := a_len H). rewrite app_length in Ln. cbn in Ln.
    replace (rsz t) with (length l) by lia. rewrite <- (Nat.add_0_r (rbs t)) at 1. apply (@n_del_loop_ok l []); auto.
    + now apply rnd_has_shell with (l := l).
    + intros i x E. apply (a_slot H). cbn in E. rewrite nth_app_l; auto. apply nth_error_Some. congruence.
    + intros x I. apply (arr_in x H). rewrite in_app_iff. auto.
    + now apply rnd_has_nd in H.
  - intros t RS. destruct (clear_shell RS) as (r' & E & A). unfold wp. rewrite E. exact A.
Qed.
End RndIdx.
