(** Iterating over a hashed index. *)
From Verif Require Import Prelude Layer LayerBase HashModel HashIdx HashHeap HashAlg HashLink HashLay HashOps HashRead HashSpec HashPoint HashLayer HashOk.
Set Implicit Arguments.

Section View.
Variable V : Type.
Variable uniq : bool.
Variable hd : node.
Variable L : Layer V.
Notation hhas := (hhas uniq hd).

Lemma hp_ro A (m : HM A) r t (s : St L) : Rd m r (hp t) -> hpM L m (t, s) = Ret r (t, s).
Proof.
  intros R. apply Rd_eq in R. unfold hpM, ownM, lensM. cbn [fst snd]. rewrite R. now rewrite set_hp_self.
Qed.
Lemma h_begin_ok t a (s : St L) : hhas t a -> h_begin hd L (t, s) = Ret (List.hd hd (elems (snd a))) (t, s).
Proof.
  intros (_ & _ & W & _ & H). rewrite <- (nnode_hd hd W). apply hp_ro. rewrite <- (app_nil_r (layout _ _ _ _)) in H.
  eapply begin_lay; eauto.
Qed.
Lemma h_next_ok t a (s : St L) l1 x l2 : hhas t a -> elems (snd a) = l1 ++ x :: l2 ->
  h_next uniq L x (t, s) = Ret (List.hd hd l2) (t, s).
Proof.
  intros (_ & _ & W & U & H) E. destruct a as (n, I). cbn [snd] in *. apply hp_ro. rewrite <- (app_nil_r (layout _ _ _ _)) in H.
  destruct (elems_cut x I l1 l2 E) as (I1 & i & g1 & g2 & I2 & EI & -> & ->). clear E. rewrite EI in *. unfold after.
  destruct g2 as [|y g2].
  - replace (List.hd hd ([] ++ elems I2)) with (nnode hd I2).
    + destruct (bool_dec uniq true) as [E|E].
      * rewrite E. specialize (U E). apply Forall_app in U as (_ & U). apply Forall_inv in U. cbn [snd] in U.
        destruct g1 as [|z g1]; [|cbn in U; rewrite app_length in U; cbn in U; lia]. eapply u_after_lay; eauto.
      * apply not_true_is_false in E. rewrite E. replace x with (last_of (g1 ++ [x])) at 1 by (unfold last_of; now rewrite last_last).
        eapply n_after_lay_last; eauto.
    + cbn [app]. apply wfi_app in W as (_ & W). apply wfi_cons in W as (_ & W). exact (nnode_hd hd W).
  - cbn [app List.hd]. destruct (bool_dec uniq true) as [E|E].
    + exfalso. specialize (U E). apply Forall_app in U as (_ & U). apply Forall_inv in U. cbn [snd] in U. rewrite app_length in U. cbn in U. lia.
    + apply not_true_is_false in E. rewrite E. eapply n_after_lay_in; eauto.
Qed.
End View.
