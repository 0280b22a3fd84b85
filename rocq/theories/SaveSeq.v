(** C44 for sequenced indices.
    Source: /repo/include/boost/multi_index/sequenced_index.hpp, 855-871, 934-939 *)
From Verif Require Import Prelude SeqModel SeqSpec SeqHeap SeqProofs SeqEx Match Save.
Set Implicit Arguments.

(** a null pointer for no node *)
Definition ptr (p : option node) : node := match p with Some p => p | None => null end.

Lemma after_parts prev x l : NoDup l -> In x l -> (forall p, prev = Some p -> In p l /\ p <> x) ->
  exists a b l1 l2, l = a ++ x :: b /\ a ++ b = l1 ++ l2 /\ after prev x l = l1 ++ x :: l2 /\
    match prev with None => l1 = [] | Some p => exists l0, l1 = l0 ++ [p] end.
Proof.
  intros N I H. apply in_split in I as (a & b & ->). exists a, b.
  assert (W : without x (a ++ x :: b) = a ++ b) by (apply without_mid; apply NoDup_remove in N; tauto).
  unfold after. rewrite W. destruct prev as [p|].
  - destruct (H p eq_refl) as (Ip & Np). assert (J : In p (a ++ b)). { rewrite in_app_iff in *. cbn in Ip. intuition congruence. }
    apply NoDup_remove in N as (N & _). apply in_split in J as (u & v & J). exists (u ++ [p]), v. rewrite J. splits; eauto.
    + now rewrite <- app_assoc.
    + rewrite J in N. rewrite put_after_mid; [now rewrite <- app_assoc|]. apply NoDup_remove in N as (_ & N). rewrite in_app_iff in N. tauto.
  - exists [], (a ++ b). auto.
Qed.
Lemma rearranger_after s h l prev x rs ls : wf s ((h :: l) :: rs) ls -> ~ In null (h :: l) -> In x l ->
  (forall p, prev = Some p -> In p l /\ p <> x) ->
  exists s', s_rearranger h (ptr prev) x s = Ret tt s' /\ wf s' ((h :: after prev x l) :: rs) ls /\ fr s s'.
Proof.
  intros W Nn Ix Hp. assert (N := wf_nodup _ _ _ _ _ W). apply NoDup_cons_iff in N as (Nh & N).
  destruct (@after_parts prev x l N Ix Hp) as (a & b & l1 & l2 & El & Eab & Ea & Hl). rewrite Ea.
  unfold s_rearranger, increment.
  assert (E1 : (if ptr prev =? null then h else ptr prev) = last l1 h).
  { destruct prev as [p|]; cbn [ptr].
    - destruct Hl as (l0 & ->). rewrite last_last. destruct (Nat.eqb_spec p null) as [->|]; auto. elim Nn. right. now apply (Hp null).
    - subst. reflexivity. }
  rewrite E1. assert (Hx : x <> h) by (intros ->; auto).
  assert (Nx : ~ In x (l1 ++ l2)). { rewrite <- Eab. rewrite El in N. now apply NoDup_remove_2 in N. }
  assert (G : forall u v, l = u ++ v -> last u h = last l1 h -> nx s (last l1 h) = Some (hd h v)).
  { intros u v E <-. rewrite E in W. destruct u as [|c u _] using rev_ind; [apply (begin_at _ _ _ _ _ W)|].
    rewrite last_last. rewrite <- app_assoc in W. apply (next_at _ _ _ _ _ _ _ W). }
  assert (Nxt : l1 = a /\ l2 = b \/ nx s (last l1 h) = Some (hd h l2)).
  { destruct (app_eq_app _ _ _ _ Eab) as (c & [(-> & ->)|(-> & ->)]).
    - destruct c as [|y c]; [left; rewrite app_nil_r; auto|right]. rewrite (G l1 ((y :: c) ++ x :: b)); auto. now rewrite El, <- app_assoc.
    - destruct c as [|y c _] using rev_ind; [left; rewrite app_nil_r; auto|right].
      apply (G (a ++ x :: c ++ [y]) l2).
      * rewrite El. rewrite <- !app_assoc. cbn. now rewrite <- app_assoc.
      * rewrite !app_comm_cons, !app_assoc, !last_last. auto. }
  destruct Nxt as [(-> & ->)|Nxt].
  - rewrite (@bind_ret _ _ _ (get_next (last a h)) _ s x s) by (unfold get_next; now rewrite (G a (x :: b))).
    rewrite Nat.eqb_refl, <- El. exists s. auto.
  - rewrite (@bind_ret _ _ _ (get_next (last l1 h)) _ s (hd h l2) s) by (unfold get_next; now rewrite Nxt).
    destruct (Nat.eqb_spec (hd h l2) x) as [E|_].
    + exfalso. destruct l2 as [|y l2]; cbn in E; [congruence|]. apply Nx. rewrite in_app_iff. cbn. auto.
    + rewrite El in W. apply (relink_at s h a x b l1 l2 rs ls W Eab).
Qed.

(** save_ of a sequenced index with elements [xs], elements in all [base], followed by load_ of an index which has
    received copies [f x] of the elements in the order [base]: the elements are in the order they had.  What
    follows in the archive is left to be read. *)
Theorem C44_sequenced base xs f m0 : NoDup base -> Permutation xs base -> ready base m0 ->
  (forall a b, In a base -> In b base -> f a = f b -> a = b) ->
  exists m1 ar, save xs m0 = Ret ar m1 /\ ready base m1 /\
    forall tail s h others pool, ~ In null (h :: map f base) -> heap_is s ((h, map f base) :: others) pool ->
      exists s', load (map f base) (fun p x => s_rearranger h (ptr p) x) (map (option_map f) ar ++ tail) s = Ret tail s' /\
        heap_is s' ((h, map f xs) :: others) pool.
Proof.
  intros N Pm Rd Inj.
  destruct (@save_load unit (fun _ _ => True) (fun _ _ => ret tt) (fun _ => False) base xs f m0 N Pm Rd Inj) as (m1 & ar & E & Rd1 & _).
  { intros. exact I. }
  exists m1, ar. splits; auto. intros tail s h others pool Nn H.
  destruct (@save_load sst (fun l s => heap_is s ((h, l) :: others) pool) (fun p x => s_rearranger h (ptr p) x) (fun _ => False) base xs f m0 N Pm Rd Inj) as (m1' & ar' & E' & _ & K).
  { intros prev x l s1 Pl Hl Ix Hp. rewrite heap_wf in Hl.
    destruct (@rearranger_after s1 h l prev x (rings others) pool Hl) as (s' & E1 & W & _); auto.
    - intros [J|J]; apply Nn; [left; auto|right]. eapply Permutation_in; eauto.
    - eapply wp_det; [exact E1|]. now apply heap_wf. }
  rewrite E in E'. injection E' as <- <-. assert (W := K tail s H). unfold wp in W.
  destruct (load _ _ _ s) as [t s'| |]; try easy. destruct W as (-> & W). eauto.
Qed.
(** as [o_load_emit] *)
Lemma q_load_emit ok base Fin tail s h rs ls : wf s ((h :: base) :: rs) ls -> ~ In null (h :: base) -> Permutation Fin base -> subseq (filter ok Fin) base ->
  wp (load base (fun p x => s_rearranger h (ptr p) x) (emit ok (hd null Fin) 3 Fin ++ tail))
    (fun t s' => t = tail /\ wf s' ((h :: Fin) :: rs) ls) (fun _ => False) s.
Proof.
  intros W Nn Pm Sb. assert (Nb := wf_nodup _ _ _ _ _ W). apply NoDup_cons_iff in Nb as (_ & Nb).
  assert (NF : NoDup Fin) by (eapply NoDup_perm; [symmetry; exact Pm|auto]).
  apply load_restores with (Rep := fun l s => wf s ((h :: l) :: rs) ls) (l := base); auto.
  - intros y I. eapply Permutation_in; eauto.
  - intros P x Q l s1 Pl W1. assert (Sp := placed_sub Pl). pose proof Pl as (Pml & EL & _).
    assert (Ixl : In x l) by (eapply Permutation_in; [symmetry; exact Pml|rewrite EL, in_app_iff; cbn; auto]).
    destruct (@rearranger_after s1 h l (last_opt P) x rs ls W1) as (s' & E1 & W2 & _); auto.
    + intros [J|J]; apply Nn; [left; auto|right]. rewrite <- Pm, <- Pml. exact J.
    + intros p Ep. destruct P as [|q P0 _] using rev_ind; [discriminate|]. rewrite last_opt_snoc in Ep. injection Ep as ->.
      split; [eapply subseq_in; [exact Sp|]; rewrite in_app_iff; cbn; auto|]. intros ->. rewrite EL, <- app_assoc in NF. cbn [app] in NF.
      apply NoDup_remove_2 in NF. apply NF. rewrite in_app_iff. cbn. auto.
    + eapply wp_det; [exact E1|]. exists (after (last_opt P) x l). split; auto. apply (placed_move (S := sst)); auto. intros _ _. exact True.
  - now symmetry.
Qed.
(** Any archive whatsoever: the same elements in some order, and no undefined behaviour; an exception if the archive
    has other pointers or ends early. *)
Theorem C44_sequenced_any s h l others pool ar : ~ In null (h :: l) -> heap_is s ((h, l) :: others) pool ->
  wp (load l (fun p x => s_rearranger h (ptr p) x) ar)
    (fun _ s' => exists l', Permutation l' l /\ heap_is s' ((h, l') :: others) pool)
    (fun s' => exists l', Permutation l' l /\ heap_is s' ((h, l') :: others) pool) s.
Proof.
  intros Nn H. apply load_any with (Rep := fun l s => heap_is s ((h, l) :: others) pool) (l := l); auto.
  - intros x I. exact I.
  - intros prev x l1 s1 Pl H1 Ix Hp. rewrite heap_wf in H1.
    destruct (@rearranger_after s1 h l1 prev x (rings others) pool H1) as (s' & E1 & W & _); auto.
    + intros [J|J]; apply Nn; [left; auto|right]. eapply Permutation_in; eauto.
    + eapply wp_det; [exact E1|]. exists (after prev x l1). split; [|now apply heap_wf]. eapply perm_trans; [symmetry|exact Pl].
      apply after_perm; auto. apply wf_nodup in H1. now apply NoDup_cons_iff in H1.
Qed.

(** an order with displaced elements alone, in pairs and with one in order between *)
Definition perm10 : list node := map node_of [1; 4; 2; 3; 0; 9; 6; 5; 8; 7].
Definition moved (x : node) : node := x + 100.
Example C44_hyp : NoDup ten /\ Permutation perm10 ten /\ ready ten junk_state /\ (forall a b, In a ten -> In b ten -> moved a = moved b -> a = b) /\
  ~ In null (40 :: map moved ten) /\ heap_is (SeqEx.mem [(40, map moved ten)] [5]) [(40, map moved ten)] [5].
Proof.
  split; [apply match_hyp|]. split; [|split; [reflexivity|]].
  - apply NoDup_Permutation_bis; [|reflexivity|]; vm_compute; [|intuition].
    repeat (constructor; [cbn; intuition discriminate|]). constructor.
  - split; [unfold moved; intros; lia|]. split; [vm_compute; intuition discriminate|]. mem_ok.
Qed.
Example C44_archive : match save perm10 junk_state with Ret ar _ => map (option_map (fun x => index_of x ten)) ar | _ => [] end =
  [Some 1; Some 4; None; Some 3; Some 0; Some 9; Some 6; Some 5; Some 8; None; None].
Proof. vm_compute. reflexivity. Qed.
Print Assumptions C44_sequenced.
Print Assumptions C44_sequenced_any.
