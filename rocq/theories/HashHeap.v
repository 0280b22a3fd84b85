(** The shape of the link fields of a hashed index, as lists of cells. *)
From Verif Require Import Prelude Layer LayerBase HashModel.
Set Implicit Arguments.

Notation cell := (loc * bptr)%type.

Lemma bptr_eqb_spec p q : reflect (p = q) (bptr_eqb p q).
Proof.
  destruct p as [x|a i], q as [y|b j]; cbn; try (constructor; congruence).
  - destruct (Nat.eqb_spec x y); constructor; congruence.
  - destruct (Nat.eqb_spec a b), (Nat.eqb_spec i j); cbn; constructor; congruence.
Qed.
Lemma loc_eqb_spec l m : reflect (l = m) (loc_eqb l m).
Proof.
  destruct l as [p|x], m as [q|y]; cbn; try (constructor; congruence).
  - destruct (bptr_eqb_spec p q); constructor; congruence.
  - destruct (Nat.eqb_spec x y); constructor; congruence.
Qed.
Lemma loc_eqb_refl l : loc_eqb l l = true.
Proof. destruct (loc_eqb_spec l l); congruence. Qed.
Lemma bptr_eqb_refl l : bptr_eqb l l = true.
Proof. destruct (bptr_eqb_spec l l); congruence. Qed.
Definition bptr_dec (p q : bptr) : {p = q} + {p <> q}.
Proof. decide equality; apply Nat.eq_dec. Defined.
Definition loc_dec (p q : loc) : {p = q} + {p <> q}.
Proof. decide equality; [apply bptr_dec|apply Nat.eq_dec]. Defined.
Definition cell_dec (p q : cell) : {p = q} + {p <> q}.
Proof. decide equality; [apply bptr_dec|apply loc_dec]. Defined.

(** permutations of cells, decided by counting *)
Definition onec (a x : cell) : nat := if cell_dec a x then 1 else 0.
Lemma countc_cons a l x : count_occ cell_dec (a :: l) x = onec a x + count_occ cell_dec l x.
Proof. unfold onec. cbn. destruct (cell_dec a x); reflexivity. Qed.
Lemma permc_count l l' :
  (forall x, count_occ cell_dec l x = count_occ cell_dec l' x) <-> Permutation l l'.
Proof. symmetry. apply Permutation_count_occ. Qed.
Ltac permc :=
  repeat match goal with H : @Permutation cell _ _ |- _ => rewrite <- permc_count in H end;
  apply permc_count; let x := fresh "x" in intros x;
  repeat match goal with H : forall y, count_occ cell_dec _ y = count_occ cell_dec _ y |- _ => specialize (H x) end;
  repeat match goal with
    | H : context [count_occ cell_dec (_ ++ _) x] |- _ => rewrite count_occ_app in H
    | H : context [count_occ cell_dec (_ :: _) x] |- _ => rewrite countc_cons in H
    | |- context [count_occ cell_dec (_ ++ _) x] => rewrite count_occ_app
    | |- context [count_occ cell_dec (_ :: _) x] => rewrite countc_cons
    end; cbn [count_occ] in *; lia.

(** ** [hs h C]: the cells [C] are separate and the link fields hold their contents *)
Definition hs (h : heap) (C : list cell) : Prop :=
  NoDup (map fst C) /\ Forall (fun c => h (fst c) = Some (snd c)) C.

Lemma hs_perm h C C' : Permutation C C' -> hs h C -> hs h C'.
Proof.
  intros P (N & F). split.
  - eapply NoDup_perm; [apply Permutation_map; exact P|auto].
  - rewrite Forall_forall in *. intros c I. apply F. eapply Permutation_in; [symmetry|]; eauto.
Qed.
Lemma hs_app h C D : hs h (C ++ D) -> hs h C /\ hs h D.
Proof.
  intros (N & F). rewrite map_app in N. apply NoDup_app_iff in N. apply Forall_app in F.
  split; split; tauto.
Qed.
Lemma hs_l h C D : hs h (C ++ D) -> hs h C.
Proof. intros H. now apply hs_app in H. Qed.
Lemma hs_r h C D : hs h (C ++ D) -> hs h D.
Proof. intros H. now apply hs_app in H. Qed.
Lemma hs_cons h c D : hs h (c :: D) -> hs h D.
Proof. apply (@hs_r h [c]). Qed.
Lemma hs_in h C l v : hs h C -> In (l, v) C -> h l = Some v.
Proof. intros (_ & F) I. rewrite Forall_forall in F. apply (F _ I). Qed.
Lemma hs_fun h C l v w : hs h C -> In (l, v) C -> In (l, w) C -> v = w.
Proof. intros H I J. assert (A := hs_in _ _ H I). assert (B := hs_in _ _ H J). congruence. Qed.
Lemma hs_ext h h' C : hs h C -> (forall c, In c C -> h' (fst c) = h (fst c)) -> hs h' C.
Proof.
  intros (N & F) E. split; auto. rewrite Forall_forall in *. intros c I. rewrite E; auto.
Qed.
Lemma hs_sep h C D c d : hs h (C ++ D) -> In c C -> In d D -> fst c <> fst d.
Proof.
  intros (N & _) I J E. rewrite map_app in N. apply NoDup_app_iff in N as (_ & _ & N).
  apply (N (fst c)); [now apply in_map|]. rewrite E. now apply in_map.
Qed.

(** one cell replaced *)
Inductive repl (l : loc) (v' : bptr) : list cell -> list cell -> Prop :=
| repl_here v C : repl l v' ((l, v) :: C) ((l, v') :: C)
| repl_skip c C C' : repl l v' C C' -> repl l v' (c :: C) (c :: C').
Lemma repl_fst l v C C' : repl l v C C' -> map fst C' = map fst C.
Proof. induction 1; cbn; congruence. Qed.
Lemma repl_in l v C C' : repl l v C C' -> In l (map fst C).
Proof. induction 1; cbn; auto. Qed.
Lemma hs_wr h l v C C' : hs h C -> repl l v C C' -> hs (hset h l (Some v)) C'.
Proof.
  intros (N & F) R. split; [now rewrite (repl_fst R)|].
  induction R as [w C|c C C' R IH].
  - inversion F as [|? ? F1 F2]; subst. cbn in N. inversion N as [|? ? N1 N2]; subst. constructor; cbn.
    + unfold hset. now rewrite loc_eqb_refl.
    + rewrite Forall_forall in *. intros d I. unfold hset. destruct (loc_eqb_spec (fst d) l); [|auto].
      subst. contradict N1. now apply in_map.
  - inversion F as [|? ? F1 F2]; subst. cbn in N. inversion N as [|? ? N1 N2]; subst. constructor; auto.
    unfold hset. destruct (loc_eqb_spec (fst c) l) as [E|]; auto. contradict N1. rewrite E. now apply repl_in in R.
Qed.

(** new cells *)
Lemma hs_new h C l v : hs h C -> ~ In l (map fst C) -> hs (hset h l (Some v)) ((l, v) :: C).
Proof.
  intros (N & F) I. split; cbn; [constructor; auto|]. constructor; cbn.
  - unfold hset. now rewrite loc_eqb_refl.
  - rewrite Forall_forall in *. intros d J. unfold hset. destruct (loc_eqb_spec (fst d) l); [|auto].
    subst. contradict I. now apply in_map.
Qed.

(** ** Running code on cells *)
Section Run.
Context {A : Type}.
Lemma wp_rd h C l v (k : bptr -> HM A) Q E :
  hs h C -> In (l, v) C -> wp (k v) Q E h -> wp (bind (rd l) k) Q E h.
Proof. intros H I W. unfold wp, bind, rd. rewrite (hs_in _ _ H I). exact W. Qed.
Lemma wp_pri h C b x (k : node -> HM A) Q E :
  hs h C -> In (PR b, PN x) C -> wp (k x) Q E h -> wp (bind (pri b) k) Q E h.
Proof. intros H I W. unfold wp, bind, pri, rd, bind. rewrite (hs_in _ _ H I). exact W. Qed.
Lemma wp_nxt h C x b (k : bptr -> HM A) Q E :
  hs h C -> In (NX x, b) C -> wp (k b) Q E h -> wp (bind (nxt x) k) Q E h.
Proof. apply wp_rd. Qed.
Lemma wp_wr h C C' l v (k : unit -> HM A) Q E :
  hs h C -> repl l v C C' -> (hs (hset h l (Some v)) C' -> wp (k tt) Q E (hset h l (Some v))) ->
  wp (bind (wr l v) k) Q E h.
Proof.
  intros H R W. unfold wp, bind, wr. assert (I := repl_in R). apply in_map_iff in I as ((l', w) & E1 & I).
  cbn in E1. subst l'. rewrite (hs_in _ _ H I). apply W. eapply hs_wr; eauto.
Qed.
End Run.
Lemma wp_wr1 h C C' l v (Q : unit -> heap -> Prop) E :
  hs h C -> repl l v C C' -> (hs (hset h l (Some v)) C' -> Q tt (hset h l (Some v))) -> wp (wr l v) Q E h.
Proof.
  intros H R W. unfold wp, wr. assert (I := repl_in R). apply in_map_iff in I as ((l', w) & E1 & I).
  cbn in E1. subst l'. rewrite (hs_in _ _ H I). apply W. eapply hs_wr; eauto.
Qed.

(** the same for the assigner; the tracks are of no interest here, but must not overflow *)
Section URun.
Context {A : Type}.
Lemma wp_urd h C l v (t : tracks) (k : bptr -> UM A) Q E :
  hs h C -> In (l, v) C -> wp (k v) Q E (h, t) -> wp (bind (hM (rd l)) k) Q E (h, t).
Proof. intros H I W. unfold wp, bind, ownM, lensM, rd. cbn. rewrite (hs_in _ _ H I). exact W. Qed.
Lemma wp_upri h C b x (t : tracks) (k : node -> UM A) Q E :
  hs h C -> In (PR b, PN x) C -> wp (k x) Q E (h, t) -> wp (bind (hM (pri b)) k) Q E (h, t).
Proof. intros H I W. unfold wp, bind, ownM, lensM, pri, rd, bind. cbn. rewrite (hs_in _ _ H I). exact W. Qed.
Lemma wp_unxt h C x b (t : tracks) (k : bptr -> UM A) Q E :
  hs h C -> In (NX x, b) C -> wp (k b) Q E (h, t) -> wp (bind (hM (nxt x)) k) Q E (h, t).
Proof. apply wp_urd. Qed.
Lemma wp_upfrom h (t : tracks) x (k : node -> UM A) Q E :
  wp (k x) Q E (h, t) -> wp (bind (hM (pfrom (PN x))) k) Q E (h, t).
Proof. auto. Qed.
End URun.

(** ** Layout

    The list of nodes of an index is cut into segments: a group of three or more equivalent
    elements is one segment, all other elements are segments on their own.  An item is a
    segment with the position of its bucket. *)
Notation item := (nat * list node)%type.

Section Layout.
Variable a : nat.       (* number of the bucket array *)

(** the link between the last node [p] of a bucket [pi] and the first node [q] of a segment of
    bucket [i] *)
Definition same_bucket (pi : option nat) (i : nat) : bool :=
  match pi with Some j => j =? i | None => false end.
Definition joint (pi : option nat) (p : node) (i : nat) (q : node) : list cell :=
  if same_bucket pi i then [(NX p, PN q); (PR (PN q), PN p)]
  else [(NX p, PB a i); (PR (PB a i), PN q); (PR (PN q), PN p)].
(** doubly linked nodes *)
Fixpoint dl (p : node) (l : list node) : list cell :=
  match l with
  | [] => []
  | q :: l => (NX p, PN q) :: (PR (PN q), PN p) :: dl q l
  end.
(** the links inside of a segment *)
Definition inner (g : list node) : list cell :=
  match g with
  | f :: s :: (_ :: _) as r =>
    let m := removelast (tl (tl g)) in let l := last g 0 in
    (NX f, PN s) :: (PR (PN s), PN l) :: dl s m ++ [(NX (last m s), PN f); (PR (PN l), PN (last m s))]
  | _ => []
  end.
Definition first_of (g : list node) : node := hd 0 g.
Definition last_of (g : list node) : node := last g 0.
Definition idx (pi : option nat) (I : list item) : option nat :=
  match I with [] => pi | _ => Some (fst (last I (0, []))) end.
Definition lastn (p : node) (I : list item) : node :=
  match I with [] => p | _ => last_of (snd (last I (0, []))) end.
Fixpoint links (pi : option nat) (p : node) (I : list item) : list cell :=
  match I with
  | [] => []
  | (i, g) :: r => joint pi p i (first_of g) ++ inner g ++ links (Some i) (last_of g) r
  end.
(** buckets without elements *)
Definition empties (n : nat) (I : list item) : list cell :=
  map (fun i => (PR (PB a i), PN null))
      (filter (fun i => negb (existsb (Nat.eqb i) (map fst I))) (seq 0 n)).
(** the whole index: [n] buckets, header [hd]; the bucket at end() is number [n] *)
Definition layout (n : nat) (hd : node) (I : list item) : list cell :=
  links None hd (I ++ [(n, [hd])]) ++ empties n I.

Lemma inner_one x : inner [x] = [].
Proof. reflexivity. Qed.
Lemma last_snoc {A} (l : list A) x d : last (l ++ [x]) d = x.
Proof. apply last_last. Qed.
Lemma last_cons_snoc {A} (l : list A) y x d : last (y :: l ++ [x]) d = x.
Proof. rewrite app_comm_cons. apply last_last. Qed.
Lemma inner_grp f s m l : inner (f :: s :: m ++ [l]) =
  (NX f, PN s) :: (PR (PN s), PN l) :: dl s m ++ [(NX (last m s), PN f); (PR (PN l), PN (last m s))].
Proof.
  unfold inner. destruct (m ++ [l]) as [|y r] eqn:E; [destruct m; discriminate|]. rewrite <- E.
  assert (E1 : last (f :: s :: m ++ [l]) 0 = l) by (rewrite !app_comm_cons; apply last_last).
  rewrite E1. cbn [tl]. rewrite removelast_last. reflexivity.
Qed.
Lemma last_dflt {A} (y : A) l d d' : last (y :: l) d = last (y :: l) d'.
Proof. revert y. induction l as [|z l IH]; intros y; [reflexivity|]. apply (IH z). Qed.
Lemma dl_app p l1 x l2 : dl p (l1 ++ x :: l2) =
  dl p l1 ++ (NX (last l1 p), PN x) :: (PR (PN x), PN (last l1 p)) :: dl x l2.
Proof.
  revert p. induction l1 as [|y l1 IH]; intros p; cbn [app dl]; [reflexivity|].
  rewrite IH. cbn. f_equal. f_equal. destruct l1; [reflexivity|]. now rewrite (last_dflt n l1 y p).
Qed.
Lemma last_app_cons {A} (L : list A) j J d : last (L ++ j :: J) d = last (j :: J) d.
Proof.
  induction L as [|x L IH]; [reflexivity|]. cbn [app]. rewrite <- IH. cbn.
  destruct (L ++ j :: J) eqn:E; [destruct L; discriminate|reflexivity].
Qed.
Lemma idx_app pi I J : idx pi (I ++ J) = idx (idx pi I) J.
Proof.
  unfold idx. destruct J as [|j J]; [now rewrite app_nil_r|].
  destruct I as [|i I]; [reflexivity|]. cbn [app]. now rewrite app_comm_cons, last_app_cons.
Qed.
Lemma lastn_app p I J : lastn p (I ++ J) = lastn (lastn p I) J.
Proof.
  unfold lastn. destruct J as [|j J]; [now rewrite app_nil_r|].
  destruct I as [|i I]; [reflexivity|]. cbn [app]. rewrite app_comm_cons, last_app_cons. reflexivity.
Qed.
Lemma links_app pi p I J : links pi p (I ++ J) = links pi p I ++ links (idx pi I) (lastn p I) J.
Proof.
  revert pi p. induction I as [|(i, g) I IH]; intros pi p; cbn [app links]; [reflexivity|].
  rewrite IH, !app_assoc. f_equal. f_equal.
  - destruct I; reflexivity.
  - destruct I; reflexivity.
Qed.
Lemma links_one pi p i g : links pi p [(i, g)] = joint pi p i (first_of g) ++ inner g.
Proof. cbn. now rewrite app_nil_r. Qed.

(** where the fields of buckets are *)
Lemma empties_in n I i : In (PR (PB a i), PN null) (empties n I) <-> i < n /\ ~ In i (map fst I).
Proof.
  unfold empties. rewrite in_map_iff. split.
  - intros (j & E & J). injection E as ->. apply filter_In in J as (J & K). apply in_seq in J. split; [lia|].
    intros F. rewrite negb_true_iff in K. enough (existsb (Nat.eqb i) (map fst I) = true) by congruence.
    apply existsb_exists. exists i. now rewrite Nat.eqb_refl.
  - intros (J & K). exists i. split; auto. apply filter_In. split; [apply in_seq; lia|].
    rewrite negb_true_iff. destruct (existsb _ _) eqn:E; auto. apply existsb_exists in E as (j & F & G).
    apply Nat.eqb_eq in G. now subst.
Qed.
Lemma empties_shape n I c : In c (empties n I) -> exists i, i < n /\ c = (PR (PB a i), PN null).
Proof.
  unfold empties. rewrite in_map_iff. intros (i & <- & J). apply filter_In in J as (J & _). apply in_seq in J.
  exists i. split; auto. lia.
Qed.
Lemma empties_ext n I J : (forall i, i < n -> In i (map fst I) <-> In i (map fst J)) -> empties n I = empties n J.
Proof.
  intros H. unfold empties. f_equal. apply filter_ext_in. intros i Hi. apply in_seq in Hi. f_equal.
  destruct (existsb _ (map fst I)) eqn:E, (existsb _ (map fst J)) eqn:F; auto.
  - apply existsb_exists in E as (j & J1 & J2). apply Nat.eqb_eq in J2. subst j.
    apply H in J1; [|lia]. enough (existsb (Nat.eqb i) (map fst J) = true) by congruence. apply existsb_exists.
    exists i. now rewrite Nat.eqb_refl.
  - apply existsb_exists in F as (j & J1 & J2). apply Nat.eqb_eq in J2. subst j.
    apply H in J1; [|lia]. enough (existsb (Nat.eqb i) (map fst I) = true) by congruence. apply existsb_exists.
    exists i. now rewrite Nat.eqb_refl.
Qed.
Lemma empties_nd n I : NoDup (map fst (empties n I)).
Proof.
  unfold empties. rewrite map_map. cbn. apply FinFun.Injective_map_NoDup; [intros i j E; now injection E|].
  apply NoDup_filter, seq_NoDup.
Qed.
Lemma empties_cell_nd n I : NoDup (empties n I).
Proof. eapply NoDup_map_inv. apply empties_nd. Qed.
(** bucket [i] becomes empty *)
Lemma empties_more n I J i : i < n -> ~ In i (map fst J) -> In i (map fst I) ->
  (forall j, j <> i -> In j (map fst I) <-> In j (map fst J)) ->
  Permutation (empties n J) ((PR (PB a i), PN null) :: empties n I).
Proof.
  intros Hi N1 N2 H. apply NoDup_Permutation.
  - apply empties_cell_nd.
  - constructor; [|apply empties_cell_nd]. rewrite empties_in. tauto.
  - intros c. cbn [In]. split.
    + intros C. destruct (empties_shape _ _ _ C) as (j & Hj & ->). destruct (Nat.eq_dec j i) as [->|Ne]; auto.
      right. apply empties_in in C as (C1 & C2). apply empties_in. split; auto. now rewrite H.
    + intros [<-|C]; [now apply empties_in|].
      destruct (empties_shape _ _ _ C) as (j & Hj & ->). apply empties_in in C as (C1 & C2).
      apply empties_in. split; auto. destruct (Nat.eq_dec j i) as [->|Ne]; auto. now rewrite <- H.
Qed.
(** a bucket of the list has its field in the links *)
Lemma links_bucket pi p I i : In i (map fst I) -> pi <> Some i -> exists q, In (PR (PB a i), PN q) (links pi p I).
Proof.
  revert pi p. induction I as [|(j, g) I IH]; intros pi p; [easy|]. cbn [map fst In links]. intros [->|H] N.
  - exists (first_of g). apply in_or_app. left. unfold joint. destruct (same_bucket pi i) eqn:E.
    + destruct pi as [k|]; cbn in E; [|discriminate]. apply Nat.eqb_eq in E. congruence.
    + cbn. auto.
  - destruct (Nat.eq_dec j i) as [->|Ne].
    + exists (first_of g). apply in_or_app. left. unfold joint. destruct (same_bucket pi i) eqn:E.
      * destruct pi as [k|]; cbn in E; [|discriminate]. apply Nat.eqb_eq in E. congruence.
      * cbn. auto.
    + destruct (IH (Some j) (last_of g) H) as (q & Q); [congruence|]. exists q. rewrite !in_app_iff. auto.
Qed.
Lemma last_in {A} (l : list A) d : l <> [] -> In (last l d) l.
Proof.
  induction l as [|y l IH]; [easy|]. intros _. destruct l as [|z l]; [now left|]. right. now apply IH.
Qed.
Lemma idx_in I i : idx None I = Some i -> In i (map fst I).
Proof.
  unfold idx. destruct I as [|x I]; [discriminate|]. intros E. injection E as E. rewrite <- E.
  apply in_map. assert (G : x :: I <> []) by easy. apply (last_in (0, []) G).
Qed.
End Layout.
