(** What a client sees of a container: the sequences obtained by iterating over its indices. *)
From Verif Require Import Prelude SeqModel SeqHeap SeqUser OrdModel OrdTree OrdHeap OrdRot OrdLink OrdTrav Layer LayerBase
  OrdIdx OrdSpec OrdLayer PosOk SeqIdx RndModel RndProofs RndIdx Stack.
From Verif Require HashIdx HashOk HashView.
Set Implicit Arguments.

Section View.
Variable V : Type.
Variable throws : nat -> bool.
Variable pick : list node -> node.
Variable hd : node.
Notation layer_of := (layer_of throws pick hd).

(** begin(): ord_index_impl.hpp:256-259, sequenced_index.hpp:221-224,
    random_access_index.hpp:235-238, hashed_index.hpp:245-256 *)
Definition i_begin (c : code V) (L : Layer V) : M (St (layer_of c L)) node :=
  match c return M (St (layer_of c L)) node with
  | Ordered _ _ _ _ _ => o_begin hd L
  | Sequenced _ _ _ => ownM (s_begin hd)
  | RandomAccess _ _ => ownM r_begin
  | Hashed _ _ _ _ _ _ _ => HashIdx.h_begin hd L
  end.
(** operator++ of iterators: ord_index_node.hpp:207-221 (increment), bidir_node_iterator.hpp:51-55;
    seq_index_node.hpp:80 and 180-190; rnd_index_node.hpp:51-54, rnd_node_iterator.hpp:51-55;
    hash_index_node.hpp:758-762, hash_index_iterator.hpp:57-61 *)
Definition i_next (c : code V) (L : Layer V) (x : node) : M (St (layer_of c L)) node :=
  match c return M (St (layer_of c L)) node with
  | Ordered _ _ _ _ _ => o_next L x
  | Sequenced _ _ _ => ownM (SeqModel.increment x)
  | RandomAccess _ _ => ownM (RndModel.increment x)
  | Hashed _ _ _ uniq _ _ _ => HashIdx.h_next uniq L x
  end.

(** for(;x!=last;++x), at most [fuel] rounds *)
Fixpoint walk {S} (next : node -> M S node) (last : node) (fuel : nat) (x : node) : M S (list node) :=
  if x =? last then ret []
  else match fuel with
       | O => ub
       | Datatypes.S f => y <- next x ;; l <- walk next last f y ;; ret (x :: l)
       end.
(** the elements from begin() to end(), in size() rounds *)
Definition enum (c : code V) (L : Layer V) : M (St (layer_of c L)) (list node) :=
  n <- size (layer_of c L) ;; b <- i_begin c L ;; walk (i_next c L) hd n b.

(** the state of the super of an index *)
Definition below (c : code V) (L : Layer V) : St (layer_of c L) -> St L :=
  match c return St (layer_of c L) -> St L with
  | Ordered _ _ _ _ _ => snd
  | Sequenced _ _ _ => snd
  | RandomAccess _ _ => snd
  | Hashed _ _ _ _ _ _ _ => snd
  end.

Section World.
Variable W : World V.
Notation stack := (stack throws pick hd W).

(** the sequences of all indices *)
Fixpoint views (cs : list (code V)) : St (stack cs) -> option (list (list node)) :=
  match cs return St (stack cs) -> option (list (list node)) with
  | [] => fun _ => Some []
  | c :: cs => fun s =>
      match enum c (stack cs) s, views cs (below c (stack cs) s) with
      | Ret l _, Some ls => Some (l :: ls)
      | _, _ => None
      end
  end.

(** ** correctness *)
Lemma walk_ok S (next : node -> M S node) last s : forall l fuel, length l <= fuel -> NoDup (l ++ [last]) ->
  (forall l1 x l2, l = l1 ++ x :: l2 -> next x s = Ret (List.hd last l2) s) ->
  walk next last fuel (List.hd last l) s = Ret l s.
Proof.
  induction l as [|x l IH]; intros fuel Lf N H.
  - destruct fuel; cbn [walk List.hd]; now rewrite Nat.eqb_refl.
  - destruct fuel as [|f]; [cbn in Lf; lia|]. cbn [walk List.hd]. inversion N as [|? ? N1 N2]; subst.
    destruct (Nat.eqb_spec x last) as [->|_]. { exfalso. apply N1. rewrite in_app_iff. cbn. auto. }
    unfold bind. rewrite (H [] x l eq_refl). rewrite IH; auto; [cbn in Lf; lia|].
    intros l1 y l2 ->. apply (H (x :: l1) y l2). reflexivity.
Qed.

Variable AW : Type.
Variable wrep : WS W -> AW -> Prop.
Variable wready : node -> AW -> Prop.
Variable wrem : node -> AW -> AW.
Notation spec := (spec hd wready wrem).
Notation srep := (srep throws pick hd W wrep wready wrem).

Section Iter.
Variable c : code V.
Variable L : Layer V.
Variable S : Spec V.
Variable rep : St L -> AV S -> Prop.
Notation rp := (@rep_of V throws pick hd c L S rep).
Notation seq a := (kel (kind_of hd c) (fst a)).

Lemma i_nd s a : rp s a -> NoDup (seq a ++ [hd]).
Proof.
  destruct c; cbn in *.
  - intros ((t & hs & T & _ & E) & _). rewrite <- E. destruct (tat_nodup_in T) as (N & H & _).
    apply NoDup_app_iff. splits; auto; [constructor; [easy|constructor]|]. intros x I [->|[]]. auto.
  - intros ((_ & N & _) & _). eapply NoDup_perm; [|exact N]. cbn. perm.
  - intros (A & _). apply (a_nd A).
  - intros (A & _). apply HashOk.hhas_nd in A. eapply NoDup_perm; [|exact A]. apply Permutation_cons_append.
Qed.
Lemma i_begin_ok s a : rp s a -> i_begin c L s = Ret (List.hd hd (seq a)) s.
Proof.
  destruct c, s as (t, s); cbn in *.
  - intros ((t0 & hs & T & _ & E) & _). cbn in *. unfold o_begin, ownM, lensM, gl, OrdModel.rd. cbn.
    assert (E' : t hd = Some (hcell hd hs t0)) by (eapply wfc_get; [exact T|]; now left).
    rewrite E'. cbn. now rewrite <- E.
  - intros (Wf & _). unfold ownM, lensM, s_begin. cbn.
    assert (W1 := @wp_begin node t hd (fst a) [] [] (fun n => ret n) (fun n s' => n = List.hd hd (fst a) /\ s' = t) (fun _ => False) Wf).
    unfold wp, bind, ret in W1. destruct (get_next hd t) as [r t'|t'|]; (destruct W1 as (E1 & E2); [split; reflexivity|]) || (exfalso; apply W1; split; reflexivity).
    now subst.
  - intros (A & _). cbn in A. unfold ownM, lensM, r_begin, bind, a_begin, RndModel.rd. cbn.
    assert (E : nth_error (fst a ++ [hd]) 0 = Some (List.hd hd (fst a))) by now destruct (fst a).
    apply (a_slot A) in E. rewrite Nat.add_0_r in E. now rewrite E.
  - intros (A & _). exact (HashView.h_begin_ok L (snd (t, s)) A).
Qed.
Lemma i_next_ok s a l1 x l2 : rp s a -> seq a = l1 ++ x :: l2 -> length (seq a) <= cget (layer_of c L) s ->
  i_next c L x s = Ret (List.hd hd l2) s.
Proof.
  destruct c, s as (t, s); cbn in *.
  - intros ((t0 & hs & T & _ & E) & _) Sq Sz. cbn in *. unfold o_next, OrdIdx.tree, supM, ownM, bind, lensM, Layer.size. cbn.
    assert (W1 := @increment_spec hd hs (cget L s + 4) t0 [] t l1 x l2 T (eq_trans E Sq)).
    rewrite <- E, <- size_inorder in Sz. unfold wp in W1. cbn.
    destruct (OrdModel.increment _ x t) as [r t'|t'|]; (destruct W1 as (-> & ->); [lia|reflexivity]) || (exfalso; apply W1; lia).
  - intros (Wf & _) Sq _. cbn in *. rewrite Sq in Wf. unfold ownM, lensM, SeqModel.increment. cbn.
    assert (W1 := @wp_next node t hd l1 x l2 [] [] (fun n => ret n) (fun n s' => n = List.hd hd l2 /\ s' = t) (fun _ => False) Wf).
    unfold wp, bind, ret in W1. destruct (get_next x t) as [r t'|t'|]; (destruct W1 as (E1 & E2); [split; reflexivity|]) || (exfalso; apply W1; split; reflexivity).
    now subst.
  - intros (A & _) Sq _. cbn in *. unfold rnd_has in A. rewrite Sq, <- app_assoc in A. cbn in A.
    assert (U : nth_error (l1 ++ x :: l2 ++ [hd]) (length l1) = Some x) by (rewrite nth_error_app2, Nat.sub_diag by lia; reflexivity).
    assert (N : nth_error (l1 ++ x :: l2 ++ [hd]) (length l1 + 1) = Some (List.hd hd l2)).
    { rewrite nth_error_app2 by lia. replace (length l1 + 1 - length l1) with 1 by lia. now destruct l2. }
    apply (a_up A) in U. apply (a_slot A) in N. unfold ownM, lensM, RndModel.increment, get_up, bind, RndModel.rd. cbn.
    rewrite U. cbn. rewrite <- Nat.add_assoc. now rewrite N.
  - intros (A & _) Sq _. eapply (HashView.h_next_ok L); eauto.
Qed.
Lemma enum_ok s a : rp s a -> length (seq a) <= cget (layer_of c L) s ->
  enum c L s = Ret (seq a) s.
Proof.
  intros R Sz. unfold enum, bind, Layer.size. rewrite (i_begin_ok _ _ R). apply walk_ok; auto.
  - now apply (i_nd _ _ R).
  - intros l1 x l2 E. eapply i_next_ok; eauto.
Qed.
Lemma below_ok s a : rp s a -> rep (below c L s) (snd a).
Proof. destruct c; cbn; intros (_ & R); exact R. Qed.
Lemma below_size s : cget L (below c L s) = cget (layer_of c L) s.
Proof. now destruct c. Qed.
End Iter.

Theorem views_ok cs s a : srep cs s a -> Forall (fun l => length l <= cget (stack cs) s) (els (spec cs) a) ->
  views cs s = Some (els (spec cs) a).
Proof.
  induction cs as [|c cs IH]; [reflexivity|]. cbn [views]. intros R F. cbn in F. inversion F as [|? ? F1 F2]; subst.
  assert (E : enum c (stack cs) s = Ret (kel (kind_of hd c) (fst a)) s) by (eapply (@enum_ok c); [exact R|exact F1]).
  rewrite E. rewrite (IH _ (snd a)); auto.
  - exact (@below_ok c _ _ _ _ _ R).
  - rewrite below_size. exact F2.
Qed.
End World.
End View.
