(** What a hashed index should be: its arrangement of elements, apart from link fields. *)
From Verif Require Import Prelude Layer LayerBase HashModel HashHeap HashLay HashOps.
Set Implicit Arguments.

(** What users must provide: an equivalence relation and a hash function compatible with it *)
Record heq_ok {K} (eq : K -> K -> bool) (hash : K -> nat) : Prop := mkHO {
  q_refl : forall k, eq k k = true;
  q_sym : forall k l, eq k l = true -> eq l k = true;
  q_trans : forall k l m, eq k l = true -> eq l m = true -> eq k m = true;
  q_hash : forall k l, eq k l = true -> hash k = hash l }.

(** ** Pairwise relations *)
Lemma fop_perm {A} (R : A -> A -> Prop) l l' : (forall x y, R x y -> R y x) -> Permutation l l' ->
  ForallOrdPairs R l -> ForallOrdPairs R l'.
Proof.
  intros Sy P. induction P as [|x l l' P IH|x y l|l l' l'' P IH P' IH']; intros F; auto.
  - inversion F as [|? ? F1 F2]; subst. constructor; [|auto].
    rewrite Forall_forall in *. intros z Z. apply F1. eapply Permutation_in; [symmetry; exact P|exact Z].
  - inversion F as [|? ? F1 F2]; subst. inversion F2 as [|? ? F3 F4]; subst. inversion F1 as [|? ? R1 F5]; subst.
    repeat constructor; auto.
Qed.
Lemma fop_app {A} (R : A -> A -> Prop) l l' : ForallOrdPairs R (l ++ l') <->
  ForallOrdPairs R l /\ ForallOrdPairs R l' /\ forall x y, In x l -> In y l' -> R x y.
Proof.
  induction l as [|x l IH]; cbn [app].
  - split; [intros F; repeat split; [constructor|auto|easy]|tauto].
  - split.
    + intros F. inversion F as [|? ? F1 F2]; subst. apply IH in F2 as (F2 & F3 & F4). rewrite Forall_forall in F1.
      split; [|split]; auto.
      * constructor; auto. apply Forall_forall. intros z Z. apply F1, in_or_app. auto.
      * intros y z [<-|Y] Z; auto. apply F1, in_or_app. auto.
    + intros (F1 & F2 & F3). inversion F1 as [|? ? F4 F5]; subst. constructor.
      * rewrite Forall_forall in *. intros z Z. apply in_app_or in Z as [Z|Z]; [auto|]. apply F3; cbn; auto.
      * apply IH. split; [|split]; auto. intros y z Y Z. apply F3; cbn; auto.
Qed.
Lemma fop_mid {A} (R : A -> A -> Prop) l1 x l2 : (forall x y, R x y -> R y x) ->
  ForallOrdPairs R (l1 ++ x :: l2) <-> (forall y, In y (l1 ++ l2) -> R x y) /\ ForallOrdPairs R (l1 ++ l2).
Proof.
  intros Sy. split.
  - intros F. apply (fop_perm Sy (Permutation_sym (Permutation_middle l1 l2 x))) in F.
    inversion F as [|? ? F1 F2]; subst. rewrite Forall_forall in F1. auto.
  - intros (F1 & F2). apply (fop_perm Sy (Permutation_middle l1 l2 x)). constructor; auto. now apply Forall_forall.
Qed.

(** ** Segments of classes *)
Definition flat (G : list item) : list item := flat_map (fun c => resplit (fst c) (snd c)) G.
Lemma flat_app G H : flat (G ++ H) = flat G ++ flat H.
Proof. unfold flat. apply flat_map_app. Qed.
Lemma flat_cons c G : flat (c :: G) = resplit (fst c) (snd c) ++ flat G.
Proof. reflexivity. Qed.
Lemma split_cases g : (g = [] /\ split g = []) \/ (exists x, g = [x] /\ split g = [[x]]) \/
  (exists f l, g = [f; l] /\ split g = [[f]; [l]]) \/ (3 <= length g /\ split g = [g]).
Proof.
  destruct g as [|f [|l [|y g]]]; auto; [right; left|right; right; left|right; right; right]; eauto.
  split; [cbn; lia|reflexivity].
Qed.
Lemma elems_resplit i g : elems (resplit i g) = g.
Proof.
  unfold resplit, elems.
  destruct (split_cases g) as [(-> & ->)|[(x & -> & ->)|[(f & l & -> & ->)|(_ & ->)]]]; cbn; auto. now rewrite app_nil_r.
Qed.
Lemma elems_flat G : elems (flat G) = elems G.
Proof.
  induction G as [|(i, g) G IH]; [reflexivity|]. rewrite flat_cons, elems_app, IH, elems_resplit. reflexivity.
Qed.
Lemma elems_cons i g I : elems ((i, g) :: I) = g ++ elems I.
Proof. reflexivity. Qed.
Lemma in_elems y I : In y (elems I) <-> exists it, In it I /\ In y (snd it).
Proof. unfold elems. apply in_flat_map. Qed.
Lemma resplit_fst i g it : In it (resplit i g) -> fst it = i.
Proof. unfold resplit. intros H. apply in_map_iff in H as (s & <- & _). reflexivity. Qed.
Lemma resplit_shaped i g it : In it (resplit i g) -> shaped (snd it).
Proof.
  unfold resplit. intros H. apply in_map_iff in H as (s & <- & H). cbn [snd]. unfold shaped.
  destruct (split_cases g) as [(-> & E)|[(x & -> & E)|[(f & l & -> & E)|(L & E)]]]; rewrite E in H.
  - easy.
  - destruct H as [<-|[]]. auto.
  - destruct H as [<-|[<-|[]]]; auto.
  - destruct H as [<-|[]]. auto.
Qed.
Lemma resplit_ne i g : g <> [] -> resplit i g <> [].
Proof.
  intros N. unfold resplit.
  destruct (split_cases g) as [(-> & E)|[(x & -> & E)|[(f & l & -> & E)|(L & E)]]]; rewrite ?E; easy.
Qed.
Lemma resplit_in i g it : In it (resplit i g) -> incl (snd it) g.
Proof.
  intros H y Y. rewrite <- (elems_resplit i g). apply in_elems. eauto.
Qed.

Lemma elems_ins i g I : Permutation (elems (ins_front i g I)) (g ++ elems I).
Proof.
  induction I as [|(j, g') I IH]; cbn [ins_front]; [reflexivity|].
  destruct (i =? j); [reflexivity|].
  rewrite !elems_cons, IH. rewrite !app_assoc. apply Permutation_app_tail, Permutation_app_comm.
Qed.
Lemma ins_perm i g I : Permutation (ins_front i g I) ((i, g) :: I).
Proof.
  induction I as [|(j, g') I IH]; cbn [ins_front]; [reflexivity|].
  destruct (i =? j); [reflexivity|]. rewrite IH. apply perm_swap.
Qed.

(** ** Classes of equivalent elements, each with its bucket *)
Section Classes.
Context {V K : Type}.
Variable key : V -> K.
Variable eq : K -> K -> bool.
Variable hash : K -> nat.
Variable uniq : bool.

Section Val.
Variable val : node -> V.
Notation kf y := (key (val y)).
Definition apart (c d : item) : Prop := forall y z, In y (snd c) -> In z (snd d) -> eq (kf y) (kf z) = false.
Definition class (n : nat) (c : item) : Prop :=
  snd c <> [] /\ (forall y, In y (snd c) -> position (hash (kf y)) n = fst c) /\
  (forall y z, In y (snd c) -> In z (snd c) -> eq (kf y) (kf z) = true) /\
  (uniq = true -> length (snd c) = 1).
Definition classes (n : nat) (I G : list item) : Prop :=
  I = flat G /\ Forall (class n) G /\ ForallOrdPairs apart G.
End Val.

(** an arrangement: number of buckets, segments *)
Definition hav := (nat * list item)%type.
Definition hok (val : node -> V) (a : hav) : Prop := exists G, classes val (fst a) (snd a) G.
Definition rem_items (x : node) (I : list item) : list item :=
  flat_map (fun it => resplit (fst it) (remove Nat.eq_dec x (snd it))) I.
Definition hrem (x : node) (a : hav) : hav := (fst a, rem_items x (snd a)).
(** the segment of the last element linked goes first *)
Definition pos_of (val : node -> V) (n : nat) (g : list node) : nat :=
  match g with [] => 0 | _ => position (hash (key (val (last_of g)))) n end.
Definition rehashed (val : node -> V) (n : nat) (I : list item) : list item :=
  fold_right (fun it J => ins_front (pos_of val n (snd it)) (snd it) J) [] I.
Definition hsame (val : node -> V) (a a' : hav) : Prop :=
  a' = a \/ exists n, a' = (n, rehashed val n (snd a)).
(** [x] in front of its class *)
Inductive added (val : node -> V) (n : nat) (x : node) : list item -> list item -> Prop :=
| add_class G1 i g G2 : (forall y, In y g -> eq (key (val x)) (key (val y)) = true) ->
    added val n x (G1 ++ (i, g) :: G2) (G1 ++ (i, x :: g) :: G2)
| add_new G : (forall y, In y (elems G) -> eq (key (val x)) (key (val y)) = false) ->
    added val n x G (ins_front (position (hash (key (val x))) n) [x] G).
Definition hput (val : node -> V) (x : node) (a a' : hav) : Prop :=
  fst a' = fst a /\ exists G G', classes val (fst a) (snd a) G /\ ~ In x (elems G) /\ added val (fst a) x G G' /\
    snd a' = flat G'.
Definition hins (val : node -> V) (h : option node) (a : hav) (x : node) (a' : hav) : Prop :=
  exists a1, hsame val a a1 /\ hput val x a1 a'.
Definition hmov (val : node -> V) (x : node) (a a' : hav) : Prop :=
  a' = a \/ In x (elems (snd a)) /\ NoDup (elems (snd a)) /\ hput val x (hrem x a) a'.
Definition hconf (v w : V) : Prop := uniq = true /\ eq (key v) (key w) = true.

Definition hkind : kind V :=
  {| kv := hav; kel := fun a => elems (snd a); kok := hok; ksame := hsame; krem := hrem;
     kins := hins; kmov := hmov; kconf := hconf |}.

(** ** Facts *)
Hypothesis HO : heq_ok eq hash.
Lemma q_symf k l : eq k l = false -> eq l k = false.
Proof. intros H. destruct (eq l k) eqn:E; auto. rewrite (q_sym HO _ _ E) in H. discriminate. Qed.
Lemma q_left k l m : eq k l = true -> eq k m = eq l m.
Proof.
  intros H. destruct (eq l m) eqn:E; [eapply (q_trans HO); eauto|].
  destruct (eq k m) eqn:F; auto. rewrite <- E. symmetry. eapply (q_trans HO); [apply (q_sym HO); exact H|exact F].
Qed.
Lemma q_right k l m : eq k l = true -> eq m k = eq m l.
Proof.
  intros H. destruct (eq m k) eqn:E; [symmetry; eapply (q_trans HO); eauto|].
  destruct (eq m l) eqn:F; auto. rewrite <- E. eapply (q_trans HO); [exact F|apply (q_sym HO); exact H].
Qed.
Lemma apart_sym val c d : apart val c d -> apart val d c.
Proof. intros H y z Y Z. apply q_symf, H; auto. Qed.

Lemma class_ext val val' n c : (forall y, In y (snd c) -> val y = val' y) -> class val n c -> class val' n c.
Proof.
  intros E (A & B & C & D). split; [|split; [|split]]; auto.
  - intros y Y. rewrite <- E; auto.
  - intros y z Y Z. rewrite <- !E; auto.
Qed.
Lemma classes_ext val val' n I G : classes val n I G -> (forall y, In y (elems I) -> val y = val' y) -> classes val' n I G.
Proof.
  intros (-> & C & F) E. rewrite elems_flat in E. split; [|split]; auto.
  - rewrite Forall_forall in *. intros c Hc. apply class_ext with (val := val); auto. intros y Y. apply E, in_elems. eauto.
  - assert (E' : forall c y, In c G -> In y (snd c) -> val y = val' y) by (intros c y Hc Y; apply E, in_elems; eauto).
    clear C E. induction F as [|c G A F IH]; constructor.
    + rewrite Forall_forall in *. intros d Hd y z Y Z. rewrite <- (E' c y), <- (E' d z); cbn; auto. now apply (A d).
    + apply IH. intros d y Hd. apply E'. now right.
Qed.
Lemma hok_ext val val' a : hok val a -> (forall y, In y (elems (snd a)) -> val y = val' y) -> hok val' a.
Proof. intros (G & C) E. exists G. eapply classes_ext; eauto. Qed.

(** *** removal *)
Definition remc (x : node) (G : list item) : list item :=
  filter (fun c => negb (length (snd c) =? 0)) (map (fun c => (fst c, remove Nat.eq_dec x (snd c))) G).
Lemma remove_none (x : node) l : ~ In x l -> remove Nat.eq_dec x l = l.
Proof. apply notin_remove. Qed.
Lemma rem_resplit x i g : rem_items x (resplit i g) = resplit i (remove Nat.eq_dec x g).
Proof.
  unfold rem_items, resplit at 2.
  destruct (split_cases g) as [(-> & ->)|[(y & -> & ->)|[(f & l & -> & ->)|(L & ->)]]]; cbn [map flat_map fst snd app].
  - reflexivity.
  - now rewrite app_nil_r.
  - rewrite app_nil_r. cbn. destruct (Nat.eq_dec x f), (Nat.eq_dec x l); reflexivity.
  - now rewrite app_nil_r.
Qed.
Lemma rem_app x I J : rem_items x (I ++ J) = rem_items x I ++ rem_items x J.
Proof. apply flat_map_app. Qed.
Lemma rem_flat x G : rem_items x (flat G) = flat (remc x G).
Proof.
  induction G as [|(i, g) G IH]; [reflexivity|].
  rewrite flat_cons, rem_app, IH, rem_resplit. unfold remc. cbn [map fst snd filter].
  destruct (remove Nat.eq_dec x g) as [|y g'] eqn:E; cbn [length Nat.eqb negb]; reflexivity.
Qed.
Lemma remove_app' (x : node) l l' : remove Nat.eq_dec x (l ++ l') = remove Nat.eq_dec x l ++ remove Nat.eq_dec x l'.
Proof. apply remove_app. Qed.
Lemma elems_rem x I : elems (rem_items x I) = remove Nat.eq_dec x (elems I).
Proof.
  induction I as [|(i, g) I IH]; [reflexivity|]. unfold rem_items. cbn [flat_map fst snd]. fold (rem_items x I).
  now rewrite elems_app, IH, elems_resplit, elems_cons, remove_app'.
Qed.
Lemma in_remc x G c : In c (remc x G) -> exists d, In d G /\ fst c = fst d /\ incl (snd c) (snd d) /\ snd c <> [] /\
  length (snd c) <= length (snd d).
Proof.
  intros H. apply filter_In in H as (H & N). apply in_map_iff in H as (d & <- & H). exists d. cbn [fst snd] in *.
  repeat split; auto.
  - intros y Y. now apply in_remove in Y.
  - now destruct (remove Nat.eq_dec x (snd d)).
  - apply remove_length_le.
Qed.
Lemma classes_rem val n I G x : classes val n I G -> classes val n (rem_items x I) (remc x G).
Proof.
  intros (-> & C & F). split; [apply rem_flat|]. split.
  - rewrite Forall_forall in *. intros c Hc. destruct (in_remc _ _ _ Hc) as (d & D & E & S & N & L).
    destruct (C d D) as (A1 & A2 & A3 & A4). split; [|split; [|split]]; auto.
    + intros y Y. rewrite E. auto.
    + intros U. specialize (A4 U). destruct (snd c); [easy|]. cbn in *. lia.
  - clear C. induction F as [|c G A F IH]; [constructor|]. unfold remc. cbn [map filter fst snd].
    fold (remc x G). destruct (negb _); auto. constructor; auto.
    rewrite Forall_forall in *. intros d Hd. destruct (in_remc _ _ _ Hd) as (d' & D & E & S & N & L).
    intros y z Y Z. apply (A d' D); auto. cbn [snd] in Y. now apply in_remove in Y.
Qed.
Lemma hok_rem val x a : hok val a -> hok val (hrem x a).
Proof. intros (G & C). exists (remc x G). now apply classes_rem. Qed.

(** *** rehashing *)
Lemma ins_over i g i' l X : i <> i' -> ins_front i g (map (pair i') l ++ X) = map (pair i') l ++ ins_front i g X.
Proof.
  intros N. induction l as [|s l IH]; cbn [map app ins_front]; [reflexivity|].
  rewrite (proj2 (Nat.eqb_neq i i') N). now rewrite IH.
Qed.
Lemma ins_at i g g' X : ins_front i g ((i, g') :: X) = (i, g) :: (i, g') :: X.
Proof. cbn. now rewrite Nat.eqb_refl. Qed.
Lemma ins_flat i g G : g <> [] -> Forall (fun c => snd c <> []) G ->
  fold_right (fun it J => ins_front i (snd it) J) (flat G) (resplit i g) = flat (ins_front i g G).
Proof.
  intros N. induction G as [|(j, g') G IH]; intros F.
  - cbn [ins_front]. rewrite flat_cons. cbn [flat flat_map fst snd app]. rewrite app_nil_r. unfold resplit.
    destruct (split_cases g) as [(-> & _)|[(y & -> & ->)|[(f & l & -> & ->)|(L & ->)]]]; cbn [map fold_right snd ins_front]; try easy.
    now rewrite Nat.eqb_refl.
  - inversion F as [|? ? F1 F2]; subst. cbn [snd] in F1. cbn [ins_front]. destruct (Nat.eqb_spec i j) as [<-|Nj].
    + rewrite !flat_cons. cbn [fst snd]. destruct (resplit i g') as [|(j, s) r] eqn:E; [now apply resplit_ne in E|].
      assert (j = i) as -> by (apply (@resplit_fst i g' (j, s)); rewrite E; now left). cbn [app].
      unfold resplit.
      destruct (split_cases g) as [(-> & _)|[(y & -> & ->)|[(f & l & -> & ->)|(L & ->)]]]; cbn [map fold_right snd app]; try easy; rewrite !ins_at; auto.
    + rewrite !flat_cons. cbn [fst snd]. rewrite <- IH by auto. clear IH F.
      induction (resplit i g) as [|it r IHr]; [reflexivity|]. cbn [fold_right]. rewrite IHr.
      unfold resplit at 1. now rewrite ins_over.
Qed.
Definition rehash_classes (val : node -> V) (n : nat) (G : list item) : list item :=
  fold_right (fun c J => ins_front (pos_of val n (snd c)) (snd c) J) [] G.
Lemma rehash_perm (f : list node -> nat) (I : list item) :
  Permutation (fold_right (fun c J => ins_front (f (snd c)) (snd c) J) [] I) (map (fun c => (f (snd c), snd c)) I).
Proof.
  induction I as [|(i, g) I IH]; cbn [fold_right map fst snd]; [reflexivity|]. rewrite ins_perm. now apply perm_skip.
Qed.
Lemma elems_perm I J : Permutation I J -> Permutation (elems I) (elems J).
Proof. unfold elems. apply Permutation_flat_map. Qed.
Lemma elems_rehashed val n I : Permutation (elems (rehashed val n I)) (elems I).
Proof.
  unfold rehashed. rewrite (elems_perm (rehash_perm _ _)). unfold elems. rewrite flat_map_concat_map, map_map. cbn [snd].
  rewrite <- flat_map_concat_map. reflexivity.
Qed.
Lemma pos_of_class val n m c y : class val n c -> In y (snd c) -> position (hash (key (val y))) m = pos_of val m (snd c).
Proof.
  intros (N & _ & Q & _) Y. unfold pos_of. destruct (snd c) as [|z g] eqn:E; [easy|]. rewrite <- E in *. f_equal.
  apply (q_hash HO), Q; auto. rewrite E. apply last_in. easy.
Qed.
Lemma rehash_flat val n m G : Forall (class val n) G -> rehashed val m (flat G) = flat (rehash_classes val m G).
Proof.
  intros F. induction F as [|(i, g) G C F IH]; [reflexivity|].
  rewrite flat_cons. unfold rehashed. rewrite fold_right_app. fold (rehashed val m (flat G)). rewrite IH.
  cbn [rehash_classes fold_right fst snd]. fold (rehash_classes val m G).
  rewrite <- ins_flat.
  - assert (E : forall it, In it (resplit i g) -> pos_of val m (snd it) = pos_of val m g).
    { intros it H. assert (S := resplit_shaped _ _ _ H). apply shaped_ne in S.
      unfold pos_of at 1. destruct (snd it) as [|y s] eqn:Es; [easy|]. rewrite <- Es in *.
      eapply pos_of_class with (c := (i, g)); [exact C|]. cbn [snd].
      apply (@resplit_in i g it H). now apply last_in. }
    unfold resplit in *. induction (split g) as [|it r IHr]; [reflexivity|]. cbn [fold_right map snd]. rewrite IHr.
    + f_equal. apply (E (i, it)). now left.
    + intros it' H. apply E. now right.
  - apply C.
  - assert (P := rehash_perm (pos_of val m) G). apply Permutation_sym in P. fold (rehash_classes val m G) in P.
    eapply Permutation_Forall; [exact P|]. apply Forall_map. eapply Forall_impl; [|exact F].
    intros c (Nc & _). exact Nc.
Qed.
Lemma classes_rehash val n m I G : classes val n I G -> classes val m (rehashed val m I) (rehash_classes val m G).
Proof.
  intros (-> & C & F). split; [eapply rehash_flat; eauto|].
  assert (P := rehash_perm (pos_of val m) G). apply Permutation_sym in P. fold (rehash_classes val m G) in P. split.
  - eapply Permutation_Forall; [exact P|]. apply Forall_map. eapply Forall_impl; [|exact C].
    intros c Hc. split; [apply Hc|]. split; [|apply Hc]. intros y Y. cbn [fst snd] in *. eapply pos_of_class; eauto.
  - eapply fop_perm; [intros; now apply apart_sym|exact P|]. clear P C.
    induction F as [|c G A F IH]; cbn [map]; constructor; auto.
    apply Forall_map. eapply Forall_impl; [|exact A]. intros d D y z Y Z. apply D; auto.
Qed.

Lemma hsame_refl val a : hsame val a a.
Proof. now left. Qed.
Lemma hsame_els val a a' : hsame val a a' -> Permutation (elems (snd a)) (elems (snd a')).
Proof. intros [->|(n & ->)]; [reflexivity|]. symmetry. apply elems_rehashed. Qed.
Lemma hsame_ok val a a' : hsame val a a' -> hok val a -> hok val a'.
Proof. intros [->|(n & ->)] H; [auto|]. destruct H as (G & C). exists (rehash_classes val n G). eapply classes_rehash; eauto. Qed.
Lemma pos_of_ext val val' n g : (forall y, In y g -> val y = val' y) -> pos_of val n g = pos_of val' n g.
Proof.
  intros E. unfold pos_of. destruct g as [|y g]; [reflexivity|]. rewrite E; auto. apply last_in. easy.
Qed.
Lemma rehashed_ext val val' n I : (forall y, In y (elems I) -> val y = val' y) -> rehashed val n I = rehashed val' n I.
Proof.
  induction I as [|(i, g) I IH]; intros E; [reflexivity|]. unfold rehashed. cbn [fold_right snd].
  fold (rehashed val n I). fold (rehashed val' n I). rewrite elems_cons in E. rewrite IH.
  - f_equal. apply pos_of_ext. intros y Y. apply E, in_or_app. auto.
  - intros y Y. apply E, in_or_app. auto.
Qed.
Lemma hsame_ext val val' a a' : hsame val a a' -> (forall y, In y (elems (snd a)) -> val y = val' y) -> hsame val' a a'.
Proof. intros [->|(n & ->)] E; [now left|right]. exists n. f_equal. now apply rehashed_ext. Qed.

(** *** insertion *)
Lemma added_els val n x G G' : added val n x G G' -> Permutation (elems G') (x :: elems G).
Proof.
  intros [G1 i g G2 _|H _].
  - rewrite !elems_app, !elems_cons. cbn [app]. symmetry. apply Permutation_middle.
  - rewrite elems_ins. reflexivity.
Qed.
Lemma hput_els val x a a' : hput val x a a' -> Permutation (elems (snd a')) (x :: elems (snd a)).
Proof. intros (_ & G & G' & (-> & _) & _ & A & ->). rewrite !elems_flat. eapply added_els; eauto. Qed.
Lemma hins_els val h a x a' : hins val h a x a' -> Permutation (elems (snd a')) (x :: elems (snd a)).
Proof.
  intros (a1 & S & P). rewrite (hput_els P). apply perm_skip. symmetry. eapply hsame_els; eauto.
Qed.
Lemma classes_added val n I G G' x : classes val n I G -> added val n x G G' ->
  (forall y, In y (elems G) -> ~ hconf (val x) (val y)) -> classes val n (flat G') G'.
Proof.
  intros (-> & C & F) A NC. split; [reflexivity|]. destruct A as [G1 i g G2 E|G E].
  - apply Forall_app in C as (C1 & C2). inversion C2 as [|? ? (Ng & Pg & Qg & Ug) C3]; subst. cbn [fst snd] in *.
    assert (exists y, In y g) as (y & Y) by (destruct g; [easy|]; eexists; now left).
    split.
    + apply Forall_app. split; auto. constructor; auto. split; [easy|]. cbn [fst snd]. split; [|split].
      * intros z [<-|Z]; auto. rewrite (q_hash HO _ _ (E y Y)). auto.
      * intros u v [<-|U] [<-|W]; auto. { apply (q_refl HO). } apply (q_sym HO). auto.
      * intros U. exfalso. apply (NC y); [rewrite elems_app, elems_cons, !in_app_iff; auto|]. split; auto.
    + apply fop_mid; [intros; now apply apart_sym|]. apply fop_mid in F; [|intros; now apply apart_sym].
      destruct F as (F1 & F2). split; auto. intros d D u v U W. cbn [snd] in U. destruct U as [<-|U].
      * rewrite (q_left _ (E y Y)). apply (F1 d D); auto.
      * apply (F1 d D); auto.
  - split.
    + eapply Permutation_Forall; [symmetry; apply ins_perm|]. constructor; auto. split; [easy|]. cbn [fst snd]. split; [|split].
      * intros y [<-|[]]. reflexivity.
      * intros y z [<-|[]] [<-|[]]. apply (q_refl HO).
      * reflexivity.
    + eapply fop_perm; [intros; now apply apart_sym|symmetry; apply ins_perm|]. constructor; auto.
      apply Forall_forall. intros d D y z Y Z. cbn [snd] in Y. destruct Y as [<-|[]]. apply E, in_elems. eauto.
Qed.
Lemma hput_ok val x a a' : hput val x a a' -> (forall y, In y (elems (snd a)) -> ~ hconf (val x) (val y)) -> hok val a'.
Proof.
  intros (E & G & G' & C & X & A & E') N. exists G'. rewrite E, E'. eapply classes_added; eauto.
  intros y Y. apply N. destruct C as (-> & _). now rewrite elems_flat.
Qed.

(** *** modification *)
Lemma remc_notin x G : Forall (fun c => snd c <> []) G -> ~ In x (elems G) -> remc x G = G.
Proof.
  intros F N. induction F as [|(i, g) G Ng F IH]; [reflexivity|]. cbn [snd] in Ng.
  rewrite elems_cons, in_app_iff in N. unfold remc. cbn [map filter fst snd]. fold (remc x G).
  rewrite (remove_none x g) by tauto. rewrite IH by tauto. now destruct g.
Qed.
Lemma remc_app x G H : remc x (G ++ H) = remc x G ++ remc x H.
Proof. unfold remc. now rewrite map_app, filter_app. Qed.
Lemma remc_added val n x G G' : Forall (fun c => snd c <> []) G -> ~ In x (elems G) -> added val n x G G' -> remc x G' = G.
Proof.
  intros F N A. destruct A as [G1 i g G2 E|G E].
  - apply Forall_app in F as (F1 & F2). inversion F2 as [|? ? Ng F3]; subst. cbn [snd] in Ng.
    rewrite elems_app, elems_cons, !in_app_iff in N. rewrite remc_app. unfold remc at 2. cbn [map filter fst snd].
    fold (remc x G2). rewrite !(@remc_notin x) by tauto. cbn [remove]. destruct (Nat.eq_dec x x); [|easy].
    rewrite (remove_none x g) by tauto. now destruct g.
  - clear E. generalize (position (hash (key (val x))) n). intros i.
    assert (B : forall J, remc x ((i, [x]) :: J) = remc x J).
    { intros J. unfold remc. cbn. destruct (Nat.eq_dec x x); easy. }
    induction F as [|(j, g) G Ng F IH]; [apply B|]. cbn [ins_front]. destruct (i =? j).
    + rewrite B. apply remc_notin; auto.
    + rewrite elems_cons, in_app_iff in N. cbn [snd] in Ng. unfold remc. cbn [map filter fst snd].
      fold (remc x (ins_front i [x] G)). rewrite IH, (remove_none x g) by tauto. now destruct g.
Qed.
Lemma hput_rem val x a a' : hput val x a a' -> hrem x a' = a.
Proof.
  intros (E & G & G' & (E1 & C & _) & N & A & E2). unfold hrem. rewrite E, E2, rem_flat.
  rewrite (@remc_added val (fst a) x G G'); auto.
  - rewrite <- E1. now destruct a.
  - eapply Forall_impl; [|exact C]. intros c (Nc & _). exact Nc.
Qed.
Lemma hmov_rem val x a a' : hmov val x a a' -> hrem x a' = hrem x a.
Proof. intros [->|(_ & _ & H)]; [reflexivity|]. eapply hput_rem; eauto. Qed.
Lemma hmov_els val x a a' : hmov val x a a' -> Permutation (elems (snd a)) (elems (snd a')).
Proof.
  intros [->|(X & N & H)]; [reflexivity|]. rewrite (hput_els H). cbn [hrem snd]. rewrite elems_rem.
  clear H. apply in_split in X as (l1 & l2 & E). rewrite E in *. rewrite remove_app'. cbn [remove].
  destruct (Nat.eq_dec x x); [|easy]. apply NoDup_remove_2 in N. rewrite in_app_iff in N.
  rewrite !remove_none by tauto. symmetry. apply Permutation_middle.
Qed.
End Classes.
