(** Proofs about the model of Alloc.v: what each function does with the blocks its objects own. *)
From Verif Require Import Prelude Alloc.
Set Implicit Arguments.

(** ** Permutations of lists of blocks *)
Definition pdec : forall x y : nat * nat, {x = y} + {x <> y}.
Proof. decide equality; apply Nat.eq_dec. Defined.
Definition pone (a x : nat * nat) : nat := if pdec a x then 1 else 0.
Lemma pcount_cons a l x : count_occ pdec (a :: l) x = pone a x + count_occ pdec l x.
Proof. unfold pone. cbn. destruct (pdec a x); reflexivity. Qed.
Lemma pperm_count l l' : (forall x, count_occ pdec l x = count_occ pdec l' x) <-> Permutation l l'.
Proof. symmetry. apply Permutation_count_occ. Qed.
Ltac pperm := unfold handle in *;
  repeat match goal with H : @Permutation (nat * nat) _ _ |- _ => rewrite <- pperm_count in H end;
  rewrite <- pperm_count; let x := fresh "x" in intros x;
  repeat match goal with H : forall y, count_occ pdec _ y = count_occ pdec _ y |- _ => specialize (H x) end;
  repeat match goal with
    | H : context [count_occ pdec (_ ++ _) x] |- _ => rewrite count_occ_app in H
    | H : context [count_occ pdec (_ :: _) x] |- _ => rewrite pcount_cons in H
    | |- context [count_occ pdec (_ ++ _) x] => rewrite count_occ_app
    | |- context [count_occ pdec (_ :: _) x] => rewrite pcount_cons
    end; cbn [count_occ] in *; lia.

(** ** Blocks owned *)
Definition spb (x : space) : list (nat * nat) := match sdata x with Some b => [(b, sal x)] | None => [] end.
Definition spbs (l : list space) : list (nat * nat) := flat_map spb l.
Definition nbs (l : list nat) (a : nat) : list (nat * nat) := map (fun b => (b, a)) l.
Definition bbs (c : cont) : list (nat * nat) := (chdr c, cal c) :: spbs (carr c).
Definition blocks (c : cont) : list (nat * nat) := bbs c ++ nbs (cnodes c) (cal c).
Definition own (C : list (nat * cont)) : list (nat * nat) := flat_map (fun p => blocks (snd p)) C.
Definition hb (x : handle) : list (nat * nat) := match x with Some p => [p] | None => [] end.
Definition ownh (H : list (nat * handle)) : list (nat * nat) := flat_map (fun p => hb (snd p)) H.

Lemma remove1_perm b a l r : Permutation l ((b, a) :: r) -> exists l', remove1 b a l = Some l' /\ Permutation l' r.
Proof.
  intros P. assert (I : In (b, a) l) by (apply Permutation_in with (1 := Permutation_sym P); now left).
  enough (Z : exists l', remove1 b a l = Some l' /\ Permutation l ((b, a) :: l')).
  { destruct Z as (l' & Z1 & Z2). exists l'. split; auto. apply Permutation_cons_inv with (b, a). now rewrite <- Z2. }
  clear P. induction l as [|[b' a'] l IH]; [easy|]. cbn. destruct (Nat.eqb_spec b' b) as [->|N1]; [destruct (Nat.eqb_spec a' a) as [->|N2]|]; cbn [andb].
  - exists l. auto.
  - destruct I as [I|I]; [congruence|]. destruct (IH I) as (l' & -> & P). eexists. split; [reflexivity|]. pperm.
  - destruct I as [I|I]; [congruence|]. destruct (IH I) as (l' & -> & P). eexists. split; [reflexivity|]. pperm.
Qed.

Section Assoc.
Context {A : Type}.
Variable bs : A -> list (nat * nat).
Let ob (l : list (nat * A)) := flat_map (fun p => bs (snd p)) l.
Lemma find_own l i x : find l i = Some x -> Permutation (ob l) (bs x ++ ob (del l i)).
Proof.
  induction l as [|[j y] l IH]; [easy|]. cbn. destruct (Nat.eqb_spec j i) as [->|N].
  - intros [= ->]. apply Permutation_refl.
  - intros H. specialize (IH H). unfold ob in *. cbn. pperm.
Qed.
Lemma set_own l i x y : find l i = Some x -> Permutation (ob (set l i y)) (bs y ++ ob (del l i)).
Proof.
  induction l as [|[j z] l IH]; [easy|]. cbn. destruct (Nat.eqb_spec j i) as [->|N].
  - intros _. apply Permutation_refl.
  - intros H. specialize (IH H). unfold ob in *. cbn. pperm.
Qed.
Lemma find_set_eq (l : list (nat * A)) i x y : find l i = Some x -> find (set l i y) i = Some y.
Proof.
  induction l as [|[j z] l IH]; [easy|]. cbn. destruct (Nat.eqb_spec j i) as [->|N]; cbn.
  - intros _. now rewrite Nat.eqb_refl.
  - apply Nat.eqb_neq in N. rewrite N. auto.
Qed.
Lemma find_set_ne (l : list (nat * A)) i j y : j <> i -> find (set l i y) j = find l j.
Proof.
  intros N. induction l as [|[k z] l IH]; [easy|]. cbn. destruct (Nat.eqb_spec k i) as [->|N']; cbn.
  - destruct (Nat.eqb_spec i j); congruence.
  - now rewrite IH.
Qed.
Lemma find_del_ne (l : list (nat * A)) i j : j <> i -> find (del l i) j = find l j.
Proof.
  intros N. induction l as [|[k z] l IH]; [easy|]. cbn. destruct (Nat.eqb_spec k i) as [->|N']; cbn.
  - destruct (Nat.eqb_spec i j); congruence.
  - now rewrite IH.
Qed.
Lemma set_same (l : list (nat * A)) i x : find l i = Some x -> set l i x = l.
Proof.
  induction l as [|[j z] l IH]; [easy|]. cbn. destruct (Nat.eqb_spec j i) as [->|N].
  - now intros [= ->].
  - intros H. now rewrite IH.
Qed.
Lemma set_set (l : list (nat * A)) i x y : set (set l i x) i y = set l i y.
Proof.
  induction l as [|[j z] l IH]; [easy|]. cbn. destruct (Nat.eqb_spec j i) as [->|N]; cbn.
  - now rewrite Nat.eqb_refl.
  - apply Nat.eqb_neq in N. now rewrite N, IH.
Qed.
Lemma Forall_set (P : A -> Prop) l i y : Forall (fun p => P (snd p)) l -> P y -> Forall (fun p => P (snd p)) (set l i y).
Proof.
  intros F Y. induction F as [|[j z] l F1 F2 IH]; cbn; [constructor|]. destruct (j =? i); constructor; auto.
Qed.
Lemma Forall_del (P : A -> Prop) l i : Forall (fun p => P (snd p)) l -> Forall (fun p => P (snd p)) (del l i).
Proof.
  intros F. induction F as [|[j z] l F1 F2 IH]; cbn; [constructor|]. destruct (j =? i); auto.
Qed.
Lemma Forall_find (P : A -> Prop) l i x : Forall (fun p => P (snd p)) l -> find l i = Some x -> P x.
Proof.
  intros F. induction F as [|[j z] l F1 F2 IH]; cbn; [easy|]. destruct (j =? i); [now intros [= ->]|auto].
Qed.
Lemma fst_set (l : list (nat * A)) i y : map fst (set l i y) = map fst l.
Proof. induction l as [|[j z] l IH]; cbn; [easy|]. destruct (j =? i); cbn; [easy|now rewrite IH]. Qed.
Lemma NoDup_del (l : list (nat * A)) i : NoDup (map fst l) -> NoDup (map fst (del l i)).
Proof.
  induction l as [|[j z] l IH]; cbn; [easy|]. rewrite NoDup_cons_iff. intros (N & D). destruct (j =? i); [easy|]. cbn. constructor; auto.
  contradict N. clear - N. induction l as [|[k w] l IH]; cbn in *; [easy|]. destruct (k =? i); cbn in *; tauto.
Qed.
Lemma find_none (l : list (nat * A)) i : find l i = None <-> ~ In i (map fst l).
Proof.
  induction l as [|[j z] l IH]; cbn; [tauto|]. destruct (Nat.eqb_spec j i) as [->|N].
  - split; [easy|]. intros K. exfalso. auto.
  - rewrite IH. tauto.
Qed.
Lemma find_del_eq (l : list (nat * A)) i : NoDup (map fst l) -> find (del l i) i = None.
Proof.
  induction l as [|[j z] l IH]; cbn; [easy|]. rewrite NoDup_cons_iff. intros (N & D). destruct (Nat.eqb_spec j i) as [->|N'].
  - now apply find_none.
  - cbn. apply Nat.eqb_neq in N'. rewrite N'. auto.
Qed.
End Assoc.
Lemma own_find C i c : find C i = Some c -> Permutation (own C) (blocks c ++ own (del C i)).
Proof. apply (find_own blocks). Qed.
Lemma own_set C i c c' : find C i = Some c -> Permutation (own (set C i c')) (blocks c' ++ own (del C i)).
Proof. apply (set_own blocks). Qed.
Lemma ownh_find C i c : find C i = Some c -> Permutation (ownh C) (hb c ++ ownh (del C i)).
Proof. apply (find_own hb). Qed.
Lemma ownh_set C i c c' : find C i = Some c -> Permutation (ownh (set C i c')) (hb c' ++ ownh (del C i)).
Proof. apply (set_own hb). Qed.

Section Proofs.
Variable tr : traits.

(** no array beside the nodes, or arrays always travel with their allocator *)
Definition free : Prop := layout tr = [] \/ (pocs tr = true /\ pocma tr = true).
Definition sane (c : cont) : Prop :=
  length (carr c) = length (layout tr) /\ (free \/ Forall (fun x => sal x = cal c) (carr c)).

Definition st (s : ast) (C : list (nat * cont)) (H : list (nat * handle)) (X : list (nat * nat)) : Prop :=
  Permutation (heap s) (X ++ own C ++ ownh H) /\ cts s = C /\ hds s = H /\ Forall (fun p => sane (snd p)) C /\ NoDup (map fst C).

Notation CC := (list (nat * cont)).
Notation HH := (list (nat * handle)).
Notation XX := (list (nat * nat)).
Definition T {A} (C : CC) (H : HH) (X : XX) (m : AM A) (Q : A -> CC -> HH -> XX -> Prop) (E : CC -> HH -> XX -> Prop) : Prop :=
  forall s, st s C H X ->
  wp m (fun r s' => exists C' H' X', Q r C' H' X' /\ st s' C' H' X') (fun s' => exists C' H' X', E C' H' X' /\ st s' C' H' X') s.

Lemma T_ret A C H X (a : A) (Q : A -> CC -> HH -> XX -> Prop) E : Q a C H X -> T C H X (ret a) Q E.
Proof. intros K s S. exists C, H, X. auto. Qed.
Lemma T_throw A C H X (Q : A -> CC -> HH -> XX -> Prop) (E : CC -> HH -> XX -> Prop) : E C H X -> T C H X throw Q E.
Proof. intros K s S. exists C, H, X. auto. Qed.
Lemma T_bind A B C H X (m : AM A) (k : A -> AM B) Q E : T C H X m (fun r C' H' X' => T C' H' X' (k r) Q E) E -> T C H X (bind m k) Q E.
Proof. intros K s S. apply wp_bind. eapply wp_conseq; [apply (K s S)| |auto]. cbn. intros r s' (C' & H' & X' & K' & S'). now apply K'. Qed.
Lemma T_try A C H X (m h : AM A) Q E : T C H X m Q (fun C' H' X' => T C' H' X' h Q E) -> T C H X (try_catch m h) Q E.
Proof. intros K s S. apply wp_try. eapply wp_conseq; [apply (K s S)|auto|]. cbn. intros s' (C' & H' & X' & K' & S'). now apply K'. Qed.
Lemma T_perm A C H X X' (m : AM A) Q E : Permutation X X' -> T C H X' m Q E -> T C H X m Q E.
Proof. intros P K s (S1 & S2). apply K. split; auto. rewrite S1. now apply Permutation_app_tail. Qed.

Lemma T_choose C H X (Q : bool -> CC -> HH -> XX -> Prop) E : (forall b, Q b C H X) -> T C H X choose Q E.
Proof. intros K s S. unfold wp, choose. destruct (plan s) as [|b p]; exists C, H, X; auto. Qed.
Lemma T_may_throw C H X (Q : unit -> CC -> HH -> XX -> Prop) (E : CC -> HH -> XX -> Prop) : Q tt C H X -> E C H X -> T C H X may_throw Q E.
Proof. intros K1 K2. apply T_bind, T_choose. intros []; [apply T_throw|apply T_ret]; auto. Qed.
Lemma T_allocate C H X a (Q : nat -> CC -> HH -> XX -> Prop) (E : CC -> HH -> XX -> Prop) :
  (forall b, Q b C H ((b, a) :: X)) -> E C H X -> T C H X (allocate a) Q E.
Proof.
  intros K1 K2. apply T_bind, T_may_throw; auto. intros s (S1 & S2). exists C, H, ((next s, a) :: X). split; auto. split; auto. cbn. now constructor.
Qed.
Lemma T_dealloc C H X X' b a (Q : unit -> CC -> HH -> XX -> Prop) E :
  Permutation X ((b, a) :: X') -> Q tt C H X' -> T C H X (deallocate b a) Q E.
Proof.
  intros P K s (S1 & S2). rewrite P in S1. destruct (remove1_perm S1) as (h & R & P'). unfold wp, deallocate. rewrite R.
  exists C, H, X'. split; auto. split; auto.
Qed.
Lemma T_get C H X i c (Q : cont -> CC -> HH -> XX -> Prop) E : find C i = Some c -> (sane c -> Q c C H X) -> T C H X (get i) Q E.
Proof.
  intros F K s (S1 & S2 & S3 & S4 & S5). unfold wp, get. rewrite S2, F. exists C, H, X. split; [|repeat split; auto]. apply K. exact (@Forall_find _ sane _ _ _ S4 F).
Qed.
Lemma T_put C H X X' i c c' (Q : unit -> CC -> HH -> XX -> Prop) E :
  find C i = Some c -> Permutation (blocks c' ++ X') (blocks c ++ X) -> sane c' -> Q tt (set C i c') H X' -> T C H X (put i c') Q E.
Proof.
  intros F P Sn K s (S1 & S2 & S3 & S4 & S5). unfold wp, put. exists (set C i c'), H, X'. split; auto. split; [|cbn; rewrite S2; repeat split; auto].
  - cbn [heap]. rewrite S1. pose proof (own_find _ _ F) as F1. pose proof (own_set _ _ c' F) as F2.
    pperm.
  - now apply (@Forall_set _ sane).
  - now rewrite fst_set.
Qed.
Lemma T_new C H X X' i c (Q : unit -> CC -> HH -> XX -> Prop) E :
  find C i = None -> Permutation X (blocks c ++ X') -> sane c -> Q tt ((i, c) :: C) H X' -> T C H X (new i c) Q E.
Proof.
  intros F P Sn K s (S1 & S2 & S3 & S4 & S5). exists ((i, c) :: C), H, X'. split; auto. split; [|cbn; rewrite S2; repeat split; auto].
  - cbn [heap]. rewrite S1. change (own ((i, c) :: C)) with (blocks c ++ own C). pperm.
  - constructor; auto. now apply find_none.
Qed.
Lemma T_drop C H X i c (Q : unit -> CC -> HH -> XX -> Prop) E :
  find C i = Some c -> (NoDup (map fst C) -> Q tt (del C i) H (blocks c ++ X)) -> T C H X (drop i) Q E.
Proof.
  intros F K s (S1 & S2 & S3 & S4 & S5). exists (del C i), H, (blocks c ++ X). split; auto. split; [|cbn; rewrite S2; repeat split; auto].
  - cbn [heap]. rewrite S1. pose proof (own_find _ _ F) as F1. pperm.
  - now apply (@Forall_del _ sane).
  - now apply NoDup_del.
Qed.
Lemma T_hget C H X i c (Q : handle -> CC -> HH -> XX -> Prop) E : find H i = Some c -> Q c C H X -> T C H X (hget i) Q E.
Proof. intros F K s (S1 & S2 & S3 & S4 & S5). unfold wp, hget. rewrite S3, F. exists C, H, X. split; [|repeat split; auto]. auto. Qed.
Lemma T_hput C H X X' i c c' (Q : unit -> CC -> HH -> XX -> Prop) E :
  find H i = Some c -> Permutation (hb c' ++ X') (hb c ++ X) -> Q tt C (set H i c') X' -> T C H X (hput i c') Q E.
Proof.
  intros F P K s (S1 & S2 & S3 & S4 & S5). exists C, (set H i c'), X'. split; auto. split; [|cbn; rewrite S3; repeat split; auto].
  cbn [heap]. rewrite S1. pose proof (ownh_find _ _ F) as F1. pose proof (ownh_set _ _ c' F) as F2.
  pperm.
Qed.
Lemma T_hnew C H X X' i c (Q : unit -> CC -> HH -> XX -> Prop) E :
  Permutation X (hb c ++ X') -> Q tt C ((i, c) :: H) X' -> T C H X (hnew i c) Q E.
Proof.
  intros P K s (S1 & S2 & S3 & S4 & S5). exists C, ((i, c) :: H), X'. split; auto. split; [|cbn; rewrite S3; repeat split; auto].
  cbn [heap]. rewrite S1. change (ownh ((i, c) :: H)) with (hb c ++ ownh H). pperm.
Qed.
Lemma T_hdrop C H X i c (Q : unit -> CC -> HH -> XX -> Prop) E :
  find H i = Some c -> Q tt C (del H i) (hb c ++ X) -> T C H X (hdrop i) Q E.
Proof.
  intros F K s (S1 & S2 & S3 & S4 & S5). exists C, (del H i), (hb c ++ X). split; auto. split; [|cbn; rewrite S3; repeat split; auto].
  cbn [heap]. rewrite S1. pose proof (ownh_find _ _ F) as F1. pperm.
Qed.

(** ** Arrays *)
Lemma T_space_new C H X a n (Q : space -> CC -> HH -> XX -> Prop) (E : CC -> HH -> XX -> Prop) :
  (forall x, sal x = a -> Q x C H (spb x ++ X)) -> E C H X -> T C H X (space_new a n) Q E.
Proof.
  intros K1 K2. unfold space_new. destruct (n =? 0).
  - apply T_ret. now apply (K1 (mkSp a None)).
  - apply T_bind, T_allocate; auto. intros b. apply T_ret. now apply (K1 (mkSp a (Some b))).
Qed.
Lemma T_space_delete C H X X' x (Q : unit -> CC -> HH -> XX -> Prop) E :
  Permutation X (spb x ++ X') -> Q tt C H X' -> T C H X (space_delete x) Q E.
Proof.
  unfold spb, space_delete. intros P K. destruct (sdata x) as [b|]; [now apply T_dealloc with (X' := X')|].
  apply T_perm with (1 := P). now apply T_ret.
Qed.
Lemma T_delete_spaces l C H X X' (Q : unit -> CC -> HH -> XX -> Prop) E :
  Permutation X (spbs l ++ X') -> Q tt C H X' -> T C H X (delete_spaces l) Q E.
Proof.
  revert X. induction l as [|x l IH]; intros X P K; cbn [delete_spaces].
  - apply T_perm with (1 := P). now apply T_ret.
  - apply T_bind. apply T_space_delete with (X' := spbs l ++ X'); [now rewrite app_assoc|]. now apply IH.
Qed.
Lemma T_arrays_new a ks C H X (Q : list space -> CC -> HH -> XX -> Prop) (E : CC -> HH -> XX -> Prop) :
  (forall l, length l = length ks -> Forall (fun x => sal x = a) l -> Q l C H (spbs l ++ X)) -> E C H X -> T C H X (arrays_new a ks) Q E.
Proof.
  revert Q. induction ks as [|k ks IH]; intros Q K1 K2; cbn [arrays_new].
  - apply T_ret. now apply (K1 []).
  - apply T_bind, IH; auto. intros l L F. apply T_try, T_bind, T_space_new.
    + intros x Hx. apply T_ret. rewrite app_assoc. apply (K1 (x :: l)); cbn; auto.
    + apply T_bind, T_delete_spaces with (X' := X); auto. now apply T_throw.
Qed.

(** ** Containers *)
Definition raw (c : cont) (al a : nat) : Prop :=
  cal c = al /\ length (carr c) = length (layout tr) /\ Forall (fun x => sal x = a) (carr c).
Lemma raw_sane c al a : raw c al a -> free \/ al = a -> sane c.
Proof. intros (H1 & H2 & H3) [F|E]; split; auto. right. now rewrite H1, E. Qed.
Lemma T_base_new C H X al a (Q : cont -> CC -> HH -> XX -> Prop) (E : CC -> HH -> XX -> Prop) :
  (forall c, raw c al a -> cnodes c = [] -> Q c C H (bbs c ++ X)) -> E C H X -> T C H X (base_new tr al a) Q E.
Proof.
  intros K1 K2. apply T_bind, T_allocate; auto. intros b. apply T_try, T_bind, T_arrays_new.
  - intros l L F.
    apply T_perm with (X' := bbs (mkC al b [] l) ++ X); [unfold bbs; cbn [chdr cal carr]; pperm|]. apply T_ret. apply K1; repeat split; auto.
  - apply T_bind. apply T_dealloc with (X' := X); auto. now apply T_throw.
Qed.
Lemma T_base_delete C H X X' c (Q : unit -> CC -> HH -> XX -> Prop) E :
  Permutation X (bbs c ++ X') -> Q tt C H X' -> T C H X (base_delete c) Q E.
Proof.
  intros P K. apply T_bind. apply T_delete_spaces with (X' := (chdr c, cal c) :: X'); [unfold bbs in P; pperm|].
  now apply T_dealloc with (X' := X').
Qed.
Lemma T_delete_nodes l a C H X X' (Q : unit -> CC -> HH -> XX -> Prop) E :
  Permutation X (nbs l a ++ X') -> Q tt C H X' -> T C H X (delete_nodes l a) Q E.
Proof.
  revert X. induction l as [|x l IH]; intros X P K; cbn [delete_nodes].
  - apply T_perm with (1 := P). now apply T_ret.
  - apply T_bind. apply T_dealloc with (X' := nbs l a ++ X'); [exact P|]. now apply IH.
Qed.
Lemma T_destroy C H X X' c (Q : unit -> CC -> HH -> XX -> Prop) E :
  Permutation X (blocks c ++ X') -> Q tt C H X' -> T C H X (destroy c) Q E.
Proof.
  intros P K. apply T_bind. apply T_delete_nodes with (X' := bbs c ++ X'); [unfold blocks in P; pperm|].
  now apply T_base_delete with (X' := X').
Qed.
Lemma T_clear C H X i c (Q : unit -> CC -> HH -> XX -> Prop) E :
  find C i = Some c -> (sane c -> Q tt (set C i (with_nodes c [])) H X) -> T C H X (clear i) Q E.
Proof.
  (* the nodes are returned while the container still holds them; the blocks are taken from what is owned *)
  intros F K. apply T_bind, T_get with (c := c); auto. intros Sn s (S1 & S2 & S3 & S4 & S5).
  pose proof (own_find _ _ F) as F1. pose proof (own_set _ _ (with_nodes c []) F) as F2.
  enough (Z : forall l (s : ast) R, Permutation (heap s) (nbs l (cal c) ++ R) ->
      exists s', delete_nodes l (cal c) s = Ret tt s' /\ Permutation (heap s') R /\ cts s' = cts s /\ hds s' = hds s).
  { destruct (Z (cnodes c) s (X ++ own (set C i (with_nodes c [])) ++ ownh H)) as (s' & R & P & E2 & E3).
    - rewrite S1. unfold blocks in F1, F2. change (bbs (with_nodes c [])) with (bbs c) in F2. cbn [with_nodes cnodes nbs map] in F2. pperm.
    - unfold wp, bind. rewrite R. cbn. exists (set C i (with_nodes c [])), H, X. split; auto. split; [exact P|]. cbn. rewrite E2, S2, E3. repeat split; auto.
      + apply (@Forall_set _ sane); auto.
      + now rewrite fst_set. }
  intros l. induction l as [|b l IH]; intros s0 R P; cbn [delete_nodes].
  - eexists. split; [reflexivity|]. auto.
  - destruct (remove1_perm P) as (h & E1 & P'). unfold bind, deallocate. rewrite E1.
    destruct (IH (mkA h (next s0) (plan s0) (cts s0) (hds s0)) R P') as (s' & R' & P2 & E2 & E3). eauto.
Qed.
Lemma T_clones al k C H X (Q : list nat -> CC -> HH -> XX -> Prop) (E : CC -> HH -> XX -> Prop) :
  (forall l, Q l C H (nbs l al ++ X)) -> E C H X -> T C H X (clones al k) Q E.
Proof.
  revert X Q E. induction k as [|k IH]; intros X Q E K1 K2; cbn [clones].
  - apply T_ret. apply (K1 []).
  - apply T_bind, T_allocate; auto. intros b. apply T_bind, T_try, T_may_throw.
    + apply T_try, T_bind, IH.
      * intros l. apply T_perm with (X' := nbs (b :: l) al ++ X); [change (nbs (b :: l) al) with ((b, al) :: nbs l al); pperm|]. apply T_ret, K1.
      * apply T_bind, T_dealloc with (X' := X); auto. now apply T_throw.
    + apply T_bind, T_dealloc with (X' := X); auto. now apply T_throw.
Qed.
Lemma T_clone_all al k C H X (Q : list nat -> CC -> HH -> XX -> Prop) (E : CC -> HH -> XX -> Prop) :
  (forall l, Q l C H (nbs l al ++ X)) -> E C H X -> T C H X (clone_all al k) Q E.
Proof.
  intros K1 K2. apply T_bind, T_space_new; auto. intros x Hx. apply T_bind, T_try, T_bind, T_clones.
  - intros l. apply T_bind, T_try, T_may_throw.
    + apply T_ret. apply T_bind, T_space_delete with (X' := nbs l al ++ X); [pperm|]. apply T_ret, K1.
    + apply T_bind, T_delete_nodes with (X' := spb x ++ X); auto. apply T_throw.
      apply T_bind, T_space_delete with (X' := X); auto. now apply T_throw.
  - apply T_bind, T_space_delete with (X' := X); auto. now apply T_throw.
Qed.
Lemma T_copy_al x al C H X (Q : cont -> CC -> HH -> XX -> Prop) (E : CC -> HH -> XX -> Prop) :
  (forall c, raw c al (cal x) -> Q c C H (blocks c ++ X)) -> E C H X -> T C H X (copy_al tr x al) Q E.
Proof.
  intros K1 K2. apply T_bind, T_base_new; auto. intros c (R1 & R2) _. apply T_try, T_bind, T_clone_all.
  - intros l. apply T_perm with (X' := blocks (with_nodes c l) ++ X).
    + unfold blocks. change (bbs (with_nodes c l)) with (bbs c). cbn [with_nodes cnodes cal]. rewrite R1. pperm.
    + apply T_ret, K1. split; auto.
  - apply T_bind, T_base_delete with (X' := X); auto. now apply T_throw.
Qed.

(** ** Swapping *)
Lemma spaces_swap_eq b a l m :
  length l = length m -> b = true \/ (Forall (fun x => sal x = a) l /\ Forall (fun x => sal x = a) m) -> spaces_swap b l m = (m, l).
Proof.
  revert m. induction l as [|x l IH]; intros [|y m] L G; try discriminate; [reflexivity|]. cbn. injection L as L.
  rewrite (IH m L); [|destruct G as [G|(G1 & G2)]; [now left|right; split; [now inversion G1|now inversion G2]]].
  destruct x as [xa xd], y as [ya yd]. unfold space_swap. cbn. destruct G as [->|(G1 & G2)]; [reflexivity|].
  inversion G1; inversion G2; subst. cbn in *. subst. now destruct b.
Qed.
Lemma swap_true_eq c x : length (carr c) = length (carr x) -> swap_with true c x = (x, c).
Proof. intros L. unfold swap_with. rewrite (@spaces_swap_eq true 0); auto. now destruct c, x. Qed.
Definition fit (b : bool) (c x : cont) : Prop :=
  length (carr c) = length (carr x) /\ cal c = cal x /\
  (b = true \/ exists a, Forall (fun y => sal y = a) (carr c) /\ Forall (fun y => sal y = a) (carr x)).
Lemma swap_false_eq c x : fit false c x -> swap_with false c x = (x, c).
Proof.
  intros (L & E & [F|(a & F)]); [discriminate|]. unfold swap_with. rewrite (@spaces_swap_eq false a); auto. destruct c, x. cbn in *. now subst.
Qed.
Lemma swap_elements_eq c x : fit (pocs tr) c x -> swap_elements tr c x = (x, c).
Proof.
  intros (L & E & F). unfold swap_elements. destruct F as [F|(a & F)]; [rewrite (@spaces_swap_eq (pocs tr) 0)|rewrite (@spaces_swap_eq (pocs tr) a)]; auto; destruct c, x; cbn in *; now subst.
Qed.
Lemma Forall_nil_len (P : space -> Prop) l : length l = length (layout tr) -> layout tr = [] -> Forall P l.
Proof. intros L E. rewrite E in L. destruct l; [constructor|discriminate]. Qed.
(** two sane containers of equal allocators; without propagation on swap when [b] is [pocs], without both when [b] is false *)
Lemma fit_sane c x : sane c -> sane x -> cal c = cal x -> fit (pocs tr) c x.
Proof.
  intros (L1 & S1) (L2 & S2) E. split; [congruence|]. split; auto.
  destruct (pocs tr) eqn:P; [now left|right]. exists (cal c).
  split; [destruct S1 as [[F|[F _]]|S1]|destruct S2 as [[F|[F _]]|S2]]; try congruence; auto; try now apply Forall_nil_len. now rewrite E.
Qed.
Lemma fit_false c x : pocs tr = false \/ pocma tr = false -> sane c -> sane x -> cal c = cal x -> fit false c x.
Proof.
  intros P (L1 & S1) (L2 & S2) E. split; [congruence|]. split; auto. right. exists (cal c).
  split; [destruct S1 as [[F|[F1 F2]]|S1]|destruct S2 as [[F|[F1 F2]]|S2]]; auto; try (now apply Forall_nil_len); try (exfalso; destruct P; congruence). now rewrite E.
Qed.
Lemma T_swap_ids b C H X i j t x (Q : unit -> CC -> HH -> XX -> Prop) E :
  find C i = Some t -> find C j = Some x -> (sane t -> sane x -> swap_with b t x = (x, t)) ->
  (sane t -> sane x -> Q tt (set (set C i x) j t) H X) -> T C H X (swap_ids b i j) Q E.
Proof.
  intros F1 F2 Hs K. apply T_bind, T_get with (c := t); auto. intros St. apply T_bind, T_get with (c := x); auto. intros Sx.
  rewrite Hs by auto. destruct (Nat.eq_dec j i) as [->|N].
  - assert (t = x) as -> by congruence. apply T_bind, T_put with (c := x) (X' := X); auto. apply T_put with (c := x) (X' := X); auto. now apply find_set_eq with x.
  - (* the blocks of t are in no container between the two assignments *)
    intros s (S1 & S2 & S3 & S4 & S5). unfold wp, put, bind. cbn. exists (set (set C i x) j t), H, X. split; auto. split.
    + cbn [heap]. rewrite S1. pose proof (own_find _ _ F1) as P1. pose proof (own_set _ _ x F1) as P2.
      assert (F3 : find (set C i x) j = Some x) by (rewrite find_set_ne; auto).
      pose proof (own_find _ _ F3) as P3. pose proof (own_set _ _ t F3) as P4. pperm.
    + cbn. rewrite S2. repeat split; auto; [apply (@Forall_set _ sane); auto; apply (@Forall_set _ sane); auto|now rewrite !fst_set].
Qed.
End Proofs.
