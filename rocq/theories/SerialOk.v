(** Saving and loading of containers. *)
From Verif Require Import Prelude SeqModel SeqHeap OrdModel OrdTree OrdHeap OrdTrav Layer LayerBase
  OrdIdx OrdSpec OrdLook OrdPoint OrdLayer OrdOk PosIdx PosOk SeqIdx RndModel RndProofs RndIdx Stack View Container ContOk Iops History ContSpec Client
  Match Save SaveList SaveSeq SaveOrd RndLoad Conv Copy CopyOk Serial.
From Verif Require RndOps SeqProofs HashModel HashIdx HashHeap HashLay HashOps HashSpec HashRehash HashOk.
Set Implicit Arguments.

(** ** sequences of ordered indices *)
Section Ord.
Variables V K : Type.
Variable key : V -> K.
Variable lt : K -> K -> bool.
Hypothesis W : swo lt.
Variable vl : node -> V.
Notation below := (lower key lt vl).
Lemma sorted_order l : sorted key lt false vl l <-> in_order below l.
Proof.
  unfold sorted, rel, in_order, lower. split; intros S; induction S; constructor; auto; (eapply Forall_impl; [|eassumption]); intros y; now rewrite negb_true_iff.
Qed.
Lemma sorted_strict l : sorted key lt true vl l <-> StronglySorted (fun x y => below x y = true) l.
Proof. reflexivity. Qed.
(** a strict order admits one sequence only *)
Lemma strict_order l : StronglySorted (fun x y => below x y = true) l -> in_order below l.
Proof.
  intros S. induction S; constructor; auto. eapply Forall_impl; [|eassumption]. cbn. intros y H'. eapply below_asym; [apply (lower_swo key W vl)|exact H'].
Qed.
Lemma strict_shared l x : StronglySorted (fun x y => below x y = true) l -> In x l -> shared below l x = false.
Proof.
  intros S Ix. apply not_true_iff_false. intros Sh. apply shared_in in Sh as (y & Iy & Ne & Sm). apply same_iff in Sm as (A & B).
  destruct (@bef_total l x y Ix Iy ltac:(congruence)) as [Bf|Bf]; apply (bef_ss S) in Bf; congruence.
Qed.
Lemma strict_unique l l' : NoDup l -> Permutation l l' -> StronglySorted (fun x y => below x y = true) l ->
  StronglySorted (fun x y => below x y = true) l' -> l = l'.
Proof.
  intros N P S S'. apply order_unique with (below := below); auto using strict_order.
  - apply lower_swo. exact W.
  - assert (E : forall m, (forall x, In x m -> shared below l x = false) -> filter (shared below l) m = []).
    { induction m as [|x m IH]; auto. intros H. cbn. rewrite (H x) by (now left). apply IH. intros y I. apply H. now right. }
    unfold duplicated. rewrite !E; auto; intros x I; apply strict_shared; auto. eapply Permutation_in; [symmetry; exact P|exact I].
Qed.
(** insertion with end() as hint: equivalent elements keep the order of insertion *)
Lemma ins_end hd hint l x l' : ~ In hd l -> hint = Some hd -> in_order below l -> o_ins key lt false hd vl hint l x l' ->
  exists l1 l2, l = l1 ++ l2 /\ l' = l1 ++ x :: l2 /\ (forall y, In y l1 -> below x y = false) /\ (forall y, In y l2 -> below x y = true).
Proof.
  intros Nh -> So (l1 & l2 & -> & -> & (A1 & A2) & h1 & h2 & E & Eh & Mx). exists l1, l2. splits; auto.
  { intros y I. rewrite Forall_forall in A1. apply A1 in I. unfold rel in I. now apply negb_true_iff in I. }
  assert (h2 = []) as ->. { destruct h2 as [|z h2]; auto. cbn in Eh. subst z. exfalso. apply Nh. rewrite E, in_app_iff. cbn. auto. }
  rewrite app_nil_r in E. subst h1. destruct l2 as [|z l2]; [easy|].
  assert (Z : below x z = true).
  { destruct (below x z) eqn:Z; auto. exfalso. assert (M := Mx (l1 ++ [z]) l2 ltac:(now rewrite <- app_assoc)).
    assert (Ad : adm key lt false vl (key (vl x)) (l1 ++ [z]) l2).
    { split.
      - apply Forall_app. split; auto. constructor; auto. unfold rel. apply negb_true_iff. exact Z.
      - now inversion A2. }
    specialize (M Ad). unfold dist in M. rewrite !app_length in M. cbn in M. lia. }
  intros y [<-|I]; auto. eapply below_le_trans; [apply (lower_swo key W vl)|exact Z|]. apply (bef_ss So). exists l1, l2. auto.
Qed.
End Ord.

(** ** what is written for the order of the indices *)
Definition inj_on (f : node -> node) (l : list node) : Prop := forall a b, In a l -> In b l -> f a = f b -> a = b.
Lemma saved_ok base xs m : NoDup base -> NoDup xs -> incl xs base -> ready base m ->
  exists m1 ar, save xs m = Ret ar m1 /\ ready base m1 /\
    forall f, inj_on f base -> exists ok, subseq (filter ok (map f xs)) (map f base) /\
      map (option_map f) ar = emit ok (hd null (map f xs)) 3 (map f xs).
Proof.
  intros N Nx Ix Rd. destruct (@save_ok base xs (fun x => x) m N Nx Ix Rd ltac:(auto)) as (m1 & ar & _ & E & Rd1 & _).
  exists m1, ar. splits; auto. intros f Inj. destruct (@save_ok base xs f m N Nx Ix Rd Inj) as (m1' & ar' & ok & E' & _ & Sb & K & Em).
  rewrite E in E'. injection E' as <- <-. exists (carried f base ok). split; auto.
  rewrite (filter_map_in f ok (carried f base ok)) by auto. now apply subseq_map.
Qed.
Section Streams.
Variable V : Type.
(** [F] is the sequence of index [c], [B] that of the elements of the container *)
Definition stream_of (B : list node) (vl : node -> V) (c : code V) (F : list node) (ar : archive) : Prop :=
  match c with
  | Ordered key lt uniq _ _ =>
      let D := if uniq then [] else duplicated (lower key lt vl) F in
      if uniq then ar = [] else exists ok, subseq (filter ok D) B /\ ar = emit ok (hd null D) 3 D
  | Sequenced _ _ _ => exists ok, subseq (filter ok F) B /\ ar = emit ok (hd null F) 3 F
  | RandomAccess _ _ => exists ok, subseq (filter ok F) B /\ ar = emit ok (hd null F) 3 F
  | Hashed _ _ _ _ _ _ _ => ar = []
  end.
Fixpoint streams (B : list node) (vl : node -> V) (cs : list (code V)) (Fs : list (list node)) (ar : archive) : Prop :=
  match cs, Fs with
  | [], [] => ar = []
  | c :: cs, F :: Fs => exists a1 a2, ar = a1 ++ a2 /\ stream_of B vl c F a1 /\ streams B vl cs Fs a2
  | _, _ => False
  end.
Lemma duplicated_map K (key : V -> K) lt vl vl' f l : inj_on f l -> (forall x, In x l -> vl' (f x) = vl x) ->
  duplicated (lower key lt vl') (map f l) = map f (duplicated (lower key lt vl) l).
Proof.
  intros Inj Ev. unfold duplicated. apply filter_map_in. intros x Ix. apply eq_true_iff_eq. rewrite !shared_in.
  assert (E : forall y, In y l -> SaveList.same (lower key lt vl') (f x) (f y) = SaveList.same (lower key lt vl) x y).
  { intros y Iy. unfold SaveList.same, lower. now rewrite !Ev. }
  split.
  - intros (z & Iz & Ne & Sm). apply in_map_iff in Iz as (y & <- & Iy). exists y. rewrite E in Sm by auto. splits; auto; congruence.
  - intros (y & Iy & Ne & Sm). exists (f y). rewrite E by auto. splits; auto. now apply in_map.
Qed.
End Streams.

Section Serial.
Variable V : Type.
Variable throws : nat -> bool.
Variable pick : list node -> node.
Variable dv : V.
Variable hd : node.
Hypothesis pick_ok : forall l, ~ In (pick l) (null :: l).
Notation S0 cs := (spec hd (fun _ (_ : unit) => False) (fun _ a => a) cs).
Notation rep0 cs := (srep throws pick hd (mem_world V) (fun _ (_ : unit) => True) (fun _ _ => False) (fun _ a => a) cs).
Notation stack := (stack throws pick hd (mem_world V)).
Notation vv cs s := (val dv (bget (stack cs) s)).
Notation mm cs s := (mem (bget (stack cs) s)).
Notation tt_ cs s := (tk (bget (stack cs) s)).

Definition stk cs (F : Forall (@code_ok V) cs) := @stack_ok V throws pick dv hd (mem_world V) unit (fun _ _ => True) (fun _ _ => False) (fun _ a => a) pick_ok (mem_world_ok V) cs F.

(** the indices [cs] have the elements [All] *)
Record fit (All : list node) cs (s : St (stack cs)) (a : AV (S0 cs)) : Prop := mkFit {
  f_rep : rep0 cs s a;
  f_ok : aok (S0 cs) (vv cs s) a;
  f_perm : Forall (fun l => Permutation l All) (els (S0 cs) a);
  f_live : forall x, In x All -> live (bget (stack cs) s) x;
  f_cnt : cget (stack cs) s = length All }.
Lemma fit_sub All c cs s a : @fit All (c :: cs) s a -> @fit All cs (below throws pick hd c (stack cs) s) (snd a).
Proof.
  intros [R O P L C]. assert (R' := @below_ok V throws pick hd c _ _ _ _ _ R). cbn in O, P. destruct O as (_ & O). inversion P as [|? ? _ P']; subst.
  destruct c, s as (o, s); cbn in *; split; auto.
Qed.
Lemma fit_adv All cs s a n : Forall (@code_ok V) cs -> @fit All cs s a -> fit All cs (adv (stack cs) n s) a.
Proof.
  intros F [R O P L C]. assert (K := stk F). assert (M : mm cs (adv (stack cs) n s) = mm cs s) by (unfold adv; now rewrite (o_bb K)).
  split; auto.
  - now apply (o_repb K).
  - now rewrite (vals_mem dv _ _ M).
  - intros x I. eapply live_mem; [symmetry; exact M|auto].
  - unfold adv. now rewrite (o_cb K).
Qed.
(** ** save_ *)
Lemma save_all base cs : NoDup base -> Forall (@code_ok V) cs -> forall s a m, fit base cs s a -> ready base m ->
  wp (save_ throws pick hd cs m)
    (fun r s' => ready base (snd r) /\ (exists n, quiet throws (tt_ cs s) n /\ s' = adv (stack cs) n s) /\
       forall f vl', inj_on f base -> (forall x, In x base -> vl' (f x) = vv cs s x) ->
         streams (map f base) vl' cs (map (map f) (els (S0 cs) a)) (map (option_map f) (fst r)))
    (fun s' => exists n, blown throws (tt_ cs s) n /\ s' = adv (stack cs) n s) s.
Proof.
  intros Nb F. induction F as [|c cs H F IH]; intros s a m Ft Rd.
  - cbn [save_]. apply wp_ret. splits; auto; [|reflexivity]. exists (tt_ [] s). split; [apply quiet_refl|]. symmetry. apply (adv_self (stk (Forall_nil _))).
  - assert (O := stk F). assert (Fs := fit_sub Ft). pose proof Ft as [R Ok Pm Lv Cn]. cbn in Pm. inversion Pm as [|? ? Pl Pm']; subst. cbn in Ok. destruct Ok as (Ok & Ok').
    (* an index with something to write *)
    assert (Go : forall (T : Type) (o : T) s0 n xs, below throws pick hd c (stack cs) s = s0 -> quiet throws (tt_ cs s0) n -> NoDup xs -> incl xs base ->
      wp (r <- saved xs m ;; r' <- supM (save_ throws pick hd cs (snd r)) ;; ret (fst r ++ fst r', snd r'))
        (fun r st => ready base (snd r) /\ (exists n, quiet throws (tt_ cs s0) n /\ st = (o, adv (stack cs) n s0)) /\
           forall f vl', inj_on f base -> (forall x, In x base -> vl' (f x) = vv cs s0 x) ->
             exists ok a2, subseq (filter ok (map f xs)) (map f base) /\
               map (option_map f) (fst r) = emit ok (List.hd null (map f xs)) 3 (map f xs) ++ a2 /\
               streams (map f base) vl' cs (map (map f) (els (S0 cs) (snd a))) a2)
        (fun st => exists n, blown throws (tt_ cs s0) n /\ st = (o, adv (stack cs) n s0)) (o, adv (stack cs) n s0)).
    { intros T o s0 n xs Es Q Nx Ix. rewrite Es in Fs. destruct (@saved_ok base xs m Nb Nx Ix Rd) as (m1 & ar & E & Rd1 & Em).
      eapply wp_bind_ret; [unfold saved; rewrite E; reflexivity|]. cbn [fst snd]. apply wp_bind, wp_sup.
      eapply wp_conseq; [apply (IH _ _ _ (fit_adv n F Fs) Rd1)|..].
      - intros (a2, m2) s' (Rd2 & (n' & Q' & ->) & St). apply wp_ret. cbn [fst snd] in *. splits; auto.
        + exists n'. rewrite (adv_tk O) in Q'. rewrite (adv_adv O). split; auto. eapply quiet_trans; eauto.
        + intros f vl' Inj Ev. destruct (Em f Inj) as (ok & Sb & Ea). exists ok, (map (option_map f) a2). splits; auto.
          * rewrite map_app, Ea. reflexivity.
          * apply St; auto. intros x I. rewrite Ev by auto. symmetry. apply val_mem. apply (adv_mem O).
      - intros s' (n' & B & ->). exists n'. rewrite (adv_tk O) in B. rewrite (adv_adv O). split; auto. eapply blown_trans; eauto. }
    (* an index without *)
    assert (No : forall (T : Type) (o : T) s0, below throws pick hd c (stack cs) s = s0 ->
      wp (supM (save_ throws pick hd cs m))
        (fun r st => ready base (snd r) /\ (exists n, quiet throws (tt_ cs s0) n /\ st = (o, adv (stack cs) n s0)) /\
           forall f vl', inj_on f base -> (forall x, In x base -> vl' (f x) = vv cs s0 x) ->
             streams (map f base) vl' cs (map (map f) (els (S0 cs) (snd a))) (map (option_map f) (fst r)))
        (fun st => exists n, blown throws (tt_ cs s0) n /\ st = (o, adv (stack cs) n s0)) (o, s0)).
    { intros T o s0 Es. rewrite Es in Fs. apply wp_sup. eapply wp_conseq; [apply (IH _ _ _ Fs Rd)|..].
      - intros r s' (A & (n & B & ->) & C). splits; eauto.
      - intros s' (n & B & ->). eauto. }
    destruct c, s as (o, s); cbn in a, R, Pl, Ok; destruct R as (R & R'); cbn [save_].
    + destruct uniq.
      * eapply wp_conseq; [apply (No _ o s eq_refl)|..].
        -- intros r st (A & (n & B & ->) & C). splits; auto; [eauto|]. intros f vl' Inj Ev. cbn. exists [], (map (option_map f) (fst r)). splits; auto.
        -- intros st (n & B & ->). eauto.
      * apply (proj1 (sorted_order _ _ _ _)) in Ok. destruct R as (t & hs & TA & RB & El). cbn in El, TA.
        eapply Ro_wp with (P := fun r => r = duplicated (lower key lt (vv cs s)) (fst a)); [exact O|..].
        -- rewrite <- El. eapply duplicates_ok; eauto.
           ++ rewrite El. intros x I. apply Lv. eapply Permutation_in; eauto.
           ++ cbn in Cn. rewrite size_inorder, El, Cn, (Permutation_length Pl). lia.
           ++ now rewrite El.
        -- intros xs n -> Q. eapply wp_conseq; [apply (Go _ o s n (duplicated (lower key lt (vv cs s)) (fst a)) eq_refl Q)|..].
           ++ apply dup_nodup. eapply NoDup_perm; [symmetry; exact Pl|auto].
           ++ intros x I. apply filter_In in I as (I & _). eapply Permutation_in; eauto.
           ++ intros r st (A & (n' & B & ->) & C). splits; auto; [eauto|]. intros f vl' Inj Ev. destruct (C f vl' Inj Ev) as (ok & a2 & Sb & Ea & St).
              cbn. exists (emit ok (List.hd null (map f (duplicated (lower key lt (vv cs s)) (fst a)))) 3 (map f (duplicated (lower key lt (vv cs s)) (fst a)))), a2.
              splits; auto. exists ok. fold (duplicated (lower key lt vl') (map f (fst a))). rewrite (@duplicated_map V K key lt (vv cs s) vl' f (fst a)); auto.
              ** intros x y Ix Iy. apply Inj; eapply Permutation_in; eauto.
              ** intros x Ix. apply Ev. eapply Permutation_in; eauto.
           ++ intros st (n' & B & ->). eauto.
        -- intros n B. eauto.
    + eapply wp_bind_ret.
      { eapply (@enum_ok V throws pick hd (Sequenced V jn jp) _ _ _ (o, s) a); [split; [exact R|exact R']|]. cbn in *. rewrite Cn, (Permutation_length Pl). lia. }
      assert (G := Go _ o s (tt_ cs s) (fst a) eq_refl (quiet_refl _ _) ltac:(eapply NoDup_perm; [symmetry; exact Pl|auto]) ltac:(intros x; apply Permutation_in; exact Pl)).
      rewrite (adv_self O s) in G. eapply wp_conseq; [exact G|..].
      * intros r st (A & (n' & B & ->) & C). splits; auto; [eauto|]. intros f vl' Inj Ev. destruct (C f vl' Inj Ev) as (ok & a2 & Sb & Ea & St).
        cbn. exists (emit ok (List.hd null (map f (fst a))) 3 (map f (fst a))), a2. splits; eauto.
      * intros st (n' & B & ->). eauto.
    + eapply wp_bind_ret.
      { eapply (@enum_ok V throws pick hd (RandomAccess V ju) _ _ _ (o, s) a); [split; [exact R|exact R']|]. cbn in *. rewrite Cn, (Permutation_length Pl). lia. }
      assert (G := Go _ o s (tt_ cs s) (fst a) eq_refl (quiet_refl _ _) ltac:(eapply NoDup_perm; [symmetry; exact Pl|auto]) ltac:(intros x; apply Permutation_in; exact Pl)).
      rewrite (adv_self O s) in G. eapply wp_conseq; [exact G|..].
      * intros r st (A & (n' & B & ->) & C). splits; auto; [eauto|]. intros f vl' Inj Ev. destruct (C f vl' Inj Ev) as (ok & a2 & Sb & Ea & St).
        cbn. exists (emit ok (List.hd null (map f (fst a))) 3 (map f (fst a))), a2. splits; eauto.
      * intros st (n' & B & ->). eauto.
    + eapply wp_conseq; [apply (No _ o s eq_refl)|..].
      * intros r st (A & (n & B & ->) & C). splits; auto; [eauto|]. intros f vl' Inj Ev. cbn. exists [], (map (option_map f) (fst r)). splits; auto.
      * intros st (n & B & ->). eauto.
Qed.

(** ** load_ *)
(** the elements [B] were inserted in this order with end() as hint *)
Definition loaded (B : list node) (vl : node -> V) (c : code V) (l : list node) : Prop :=
  match c with
  | Ordered key lt uniq _ _ => if uniq then True else stable_of (lower key lt vl) B l
  | Sequenced _ _ _ => l = B
  | RandomAccess _ _ => l = B
  | Hashed _ _ _ _ _ _ _ => True
  end.
(** hashed indices do not keep their order *)
Definition restored (c : code V) (l F : list node) : Prop :=
  match c with
  | Hashed _ _ _ _ _ _ _ => Permutation l F
  | _ => l = F
  end.
Lemma fit_put All c cs s a t b : @fit All (c :: cs) s a -> fit All cs t b -> mm cs t = mm (c :: cs) s ->
  @fit All (c :: cs) (put_below throws pick hd c (stack cs) s t) (fst a, b).
Proof.
  intros [R O P L C] [R' O' P' L' C'] M. assert (Eb := put_bget throws pick hd c (stack cs) s t). cbn in O, P. destruct O as (O & _). inversion P; subst. split.
  - apply (@put_rep V throws pick hd c (stack cs) _ (rep0 cs) s a t b R R').
  - cbn [els aok cons_spec spec] in *. cbn [Stack.stack] in *. rewrite Eb. split; [cbn [fst]|exact O'].
    assert (E : val dv (bget (layer_of throws pick hd c (stack cs)) s) = vv cs t) by (symmetry; now apply vals_mem). rewrite <- E. exact O.
  - constructor; auto.
  - cbn [Stack.stack] in *. rewrite Eb. exact L'.
  - cbn [Stack.stack]. rewrite put_cget. exact C'.
Qed.
Lemma q_load_any base s h rs ls ar : wf s ((h :: base) :: rs) ls -> ~ In null (h :: base) ->
  wp (load base (fun p x => s_rearranger h (ptr p) x) ar)
    (fun _ s' => exists l', Permutation l' base /\ wf s' ((h :: l') :: rs) ls)
    (fun s' => exists l', Permutation l' base /\ wf s' ((h :: l') :: rs) ls) s.
Proof.
  intros H Nn. apply load_any with (Rep := fun l s => wf s ((h :: l) :: rs) ls) (l := base); auto.
  - intros x I. exact I.
  - intros prev x l1 s1 Pl H1 Ix Hp.
    destruct (@rearranger_after s1 h l1 prev x rs ls H1) as (s' & E1 & W & _); auto.
    + intros [J|J]; apply Nn; [left; auto|right]. eapply Permutation_in; eauto.
    + eapply wp_det; [exact E1|]. exists (after prev x l1). split; [|auto]. eapply perm_trans; [symmetry|exact Pl].
      apply after_perm; auto. apply SeqProofs.wf_nodup in H1. now apply NoDup_cons_iff in H1.
Qed.
Lemma load_emitted B tail cs : NoDup B -> ~ In null (hd :: B) -> Forall (@code_ok V) cs -> forall s a Fs ar, fit B cs s a ->
  Forall2 (loaded B (vv cs s)) cs (els (S0 cs) a) -> streams B (vv cs s) cs Fs ar ->
  Forall2 (fun c F => legal c (vv cs s) F) cs Fs -> Forall (fun F => Permutation F B) Fs ->
  wp (load_ throws pick hd B cs (ar ++ tail))
    (fun t s' => t = tail /\ mm cs s' = mm cs s /\ quiet throws (tt_ cs s) (tt_ cs s') /\ exists a', fit B cs s' a' /\ each restored cs (els (S0 cs) a') Fs)
    (fun s' => mm cs s' = mm cs s /\ blown throws (tt_ cs s) (tt_ cs s') /\ exists a', fit B cs s' a') s.
Proof.
  intros NB Nn F. induction F as [|c cs H F IH]; intros s a Fs ar Ft Ld St Lg Pm.
  - cbn [load_]. inversion Lg; subst. cbn in St. subst ar. apply wp_ret. splits; auto using quiet_refl. exists a. split; auto. constructor.
  - inversion Lg as [|? G ? Gs Lg1 Lgs]; subst. inversion Pm as [|? ? Pm1 Pms]; subst. cbn in Ld. inversion Ld as [|? ? ? ? Ld1 Lds]; subst.
    cbn in St. destruct St as (a1 & a2 & -> & St1 & Sts). rewrite <- app_assoc. assert (O := stk F).
    (* the indices below *)
    assert (Go : forall s1 b, fit B (c :: cs) s1 (b, snd a) -> mm (c :: cs) s1 = mm (c :: cs) s -> quiet throws (tt_ (c :: cs) s) (tt_ (c :: cs) s1) ->
      restored c (kel (kind_of hd c) b) G ->
      wp (lift throws pick hd c (stack cs) (load_ throws pick hd B cs (a2 ++ tail)))
        (fun t s' => t = tail /\ mm (c :: cs) s' = mm (c :: cs) s /\ quiet throws (tt_ (c :: cs) s) (tt_ (c :: cs) s') /\ exists a', fit B (c :: cs) s' a' /\ each restored (c :: cs) (els (S0 (c :: cs)) a') (G :: Gs))
        (fun s' => mm (c :: cs) s' = mm (c :: cs) s /\ blown throws (tt_ (c :: cs) s) (tt_ (c :: cs) s') /\ exists a', fit B (c :: cs) s' a') s1).
    { intros s1 b Ft1 M1 Q1 Rs. apply wp_lift. assert (Fs := fit_sub Ft1). cbn [snd] in Fs.
      assert (Eb := below_bget throws pick hd c (stack cs) s1).
      assert (Ev : vv cs (below throws pick hd c (stack cs) s1) = vv (c :: cs) s) by (apply vals_mem; rewrite Eb; exact M1).
      eapply wp_conseq; [apply (IH _ _ Gs a2 Fs)|..].
      - rewrite Ev. exact Lds.
      - rewrite Ev. exact Sts.
      - rewrite Ev. exact Lgs.
      - exact Pms.
      - intros t s' (-> & M & Q & a' & Ft' & R). rewrite Eb in M, Q. assert (Ep := put_bget throws pick hd c (stack cs) s1 s'). cbn [Stack.stack] in *. splits; auto.
        + rewrite Ep. congruence.
        + rewrite Ep. eapply quiet_trans; eauto.
        + exists (b, a'). split; [|constructor; auto]. apply (fit_put Ft1 Ft'). exact M.
      - intros s' (M & Q & a' & Ft'). rewrite Eb in M, Q. assert (Ep := put_bget throws pick hd c (stack cs) s1 s'). cbn [Stack.stack] in *. splits; auto.
        + rewrite Ep. congruence.
        + rewrite Ep. eapply blown_trans; eauto.
        + exists (b, a'). apply (fit_put Ft1 Ft'). exact M. }
    pose proof Ft as [R Ok Pe Lv Cn]. cbn in Pe. inversion Pe as [|? ? Pl Pe']; subst. cbn in Ok. destruct Ok as (Ok & Ok').
    destruct c, s as (o, s); cbn in a, R, Pl, Ok, Lg1, St1, Ld1, Cn; destruct R as (R & R'); cbn [load_].
    + destruct uniq.
      * subst a1. cbn [app]. apply (Go (o, s) (fst a)); auto using quiet_refl; [destruct a; exact Ft|].
        apply (@strict_unique V K key lt H (vv cs s)); auto.
        -- eapply NoDup_perm; [symmetry; exact Pl|auto].
        -- etransitivity; [exact Pl|now symmetry].
      * destruct St1 as (ok & Sb & ->). fold (duplicated (lower key lt (vv cs s)) G) in *.
        apply wp_bind.
        eapply wp_conseq; [apply (@o_load_emit V K throws pick dv key lt rk hd (stack cs) _ _ _ O H s (tt_ cs s) B NB Lv (eq_sym Cn) B ok G (a2 ++ tail) (fst a))|..].
        -- intros x. apply Permutation_in. exact Pm1.
        -- exact Lg1.
        -- exact Pm1.
        -- eapply (stable_sub (lower_swo key H (vv cs s))); eauto. eapply in_order_sub; [apply filter_subseq|]. eapply in_order_sub; [apply filter_subseq|exact Lg1].
        -- exists o, (tt_ cs s). rewrite (adv_self O). splits; auto using quiet_refl. now apply sorted_order.
        -- intros t st (-> & h & n & -> & Q & Hh & Ph & So). apply (Go (h, adv (stack cs) n s) G); auto.
           ++ assert (Fa := fit_adv n F (fit_sub Ft)). cbn in Fa. destruct Fa as [X1 X2 X3 X4 X5]. split; auto; cbn; auto; [now split|].
              split; [|exact X2]. apply sorted_order. rewrite (vals_mem dv (bget (stack cs) s)); auto. apply (adv_mem O).
           ++ cbn. apply (adv_mem O).
           ++ cbn. now rewrite (adv_tk O).
           ++ reflexivity.
        -- intros st (l & h & n & -> & Q & Hh & Ph & So). assert (Fa := fit_adv n F (fit_sub Ft)). cbn in Fa. destruct Fa as [X1 X2 X3 X4 X5]. splits.
           ++ cbn. apply (adv_mem O).
           ++ cbn. now rewrite (adv_tk O).
           ++ exists (l, snd a). split; auto; cbn; auto; [now split|].
              split; [|exact X2]. apply sorted_order. rewrite (vals_mem dv (bget (stack cs) s)); auto. apply (adv_mem O).
    + destruct St1 as (ok & Sb & ->). apply wp_bind, wp_own.
      eapply wp_conseq; [apply (@q_load_emit ok B G (a2 ++ tail) o hd [] [])|..]; auto.
      * rewrite <- Ld1. exact R.
      * intros t o' (-> & Wf). apply (Go (o', s) G); auto using quiet_refl; [|reflexivity].
        assert (Fa := fit_sub Ft). cbn in Fa. destruct Fa as [X1 X2 X3 X4 X5]. split; auto; cbn; auto; now split.
      * easy.
    + destruct St1 as (ok & Sb & ->). apply wp_bind. unfold rnd_has in R. rewrite Ld1 in R.
      assert (W := @r_load_emit throws ok B G (a2 ++ tail) (RndOps.adv_tk o (tt_ cs s)) hd (RndOps.arr_tk _ R) Pm1 Sb). unfold wp, sync in *. cbn [fst snd] in *.
      destruct (r_load throws B _ (RndOps.adv_tk o (tt_ cs s))) as [t o'|o'|]; auto.
      * destruct W as (-> & A & Tk). cbn [rtk RndOps.adv_tk] in Tk. apply (Go (o', adv (stack cs) (rtk o') s) G); auto.
        -- assert (Fa := fit_adv (rtk o') F (fit_sub Ft)). cbn in Fa. destruct Fa as [X1 X2 X3 X4 X5]. split; auto; cbn; auto; now split.
        -- cbn. apply (adv_mem O).
        -- cbn. rewrite (adv_tk O). destruct Tk as [->|(Th & ->)]; [apply quiet_refl|now apply quiet_S].
        -- reflexivity.
      * destruct W as (A & Th & Tk). cbn [rtk RndOps.adv_tk] in *. splits.
        -- cbn. apply (adv_mem O).
        -- cbn. rewrite (adv_tk O), Tk. now apply blown_S.
        -- exists (B, snd a). assert (Fa := fit_adv (rtk o') F (fit_sub Ft)). cbn in Fa. destruct Fa as [X1 X2 X3 X4 X5]. split; auto; cbn; auto; now split.
    + subst a1. cbn [app]. apply (Go (o, s) (fst a)); auto using quiet_refl; [destruct a; exact Ft|].
      etransitivity; [exact Pl|now symmetry].
Qed.
(** the same for any archive *)
Lemma load_anything B cs : NoDup B -> ~ In null (hd :: B) -> Forall (@code_ok V) cs -> forall s a ar, fit B cs s a ->
  Forall2 (loaded B (vv cs s)) cs (els (S0 cs) a) ->
  wp (load_ throws pick hd B cs ar)
    (fun _ s' => mm cs s' = mm cs s /\ exists a', fit B cs s' a') (fun s' => mm cs s' = mm cs s /\ exists a', fit B cs s' a') s.
Proof.
  intros NB Nn F. induction F as [|c cs H F IH]; intros s a ar Ft Ld.
  - cbn [load_]. apply wp_ret. split; auto. exists a. exact Ft.
  - cbn in Ld. inversion Ld as [|? ? ? ? Ld1 Lds]; subst. assert (O := stk F).
    assert (Go : forall s1 b ar, fit B (c :: cs) s1 (b, snd a) -> mm (c :: cs) s1 = mm (c :: cs) s ->
      wp (lift throws pick hd c (stack cs) (load_ throws pick hd B cs ar))
        (fun t s' => mm (c :: cs) s' = mm (c :: cs) s /\ exists a', fit B (c :: cs) s' a') (fun s' => mm (c :: cs) s' = mm (c :: cs) s /\ exists a', fit B (c :: cs) s' a') s1).
    { clear ar. intros s1 b ar Ft1 M1. apply wp_lift. assert (Fs := fit_sub Ft1). cbn [snd] in Fs.
      assert (Eb := below_bget throws pick hd c (stack cs) s1).
      assert (Ev : vv cs (below throws pick hd c (stack cs) s1) = vv (c :: cs) s) by (apply vals_mem; rewrite Eb; exact M1).
      assert (Fin : forall s', mm cs s' = mm cs (below throws pick hd c (stack cs) s1) /\ (exists a', fit B cs s' a') ->
        mm (c :: cs) (put_below throws pick hd c (stack cs) s1 s') = mm (c :: cs) s /\ exists a', fit B (c :: cs) (put_below throws pick hd c (stack cs) s1 s') a').
      { intros s' (M & a' & Ft'). rewrite Eb in M. assert (Ep := put_bget throws pick hd c (stack cs) s1 s'). cbn [Stack.stack] in *. split.
        - rewrite Ep. congruence.
        - exists (b, a'). apply (fit_put Ft1 Ft'). exact M. }
      eapply wp_conseq; [apply (IH _ _ ar Fs)|..].
      - rewrite Ev. exact Lds.
      - intros t s'. exact (Fin s').
      - exact Fin. }
    pose proof Ft as [R Ok Pe Lv Cn]. cbn in Pe. inversion Pe as [|? ? Pl Pe']; subst. cbn in Ok. destruct Ok as (Ok & Ok').
    destruct c, s as (o, s); cbn in a, R, Pl, Ok, Ld1, Cn; destruct R as (R & R'); cbn [load_].
    + destruct uniq.
      * apply (Go (o, s) (fst a)); auto. destruct a; exact Ft.
      * assert (St : forall h n l, has rk hd h l -> Permutation l B -> in_order (lower key lt (vv cs s)) l -> fit B (Ordered key lt false rk junk :: cs) (h, adv (stack cs) n s) (l, snd a)).
        { intros h n l Hh Ph So. assert (Fa := fit_adv n F (fit_sub Ft)). cbn in Fa. destruct Fa as [X1 X2 X3 X4 X5]. split; auto; cbn; auto; [now split|].
          split; [|exact X2]. apply sorted_order. rewrite (vals_mem dv (bget (stack cs) s)); auto. apply (adv_mem O). }
        apply wp_bind.
        eapply wp_conseq; [apply (@o_load_any V K throws pick dv key lt rk hd (stack cs) _ _ _ O H s (tt_ cs s) B NB Lv (eq_sym Cn) B ar (fst a))|..].
        -- intros x I. exact I.
        -- exists o, (tt_ cs s). rewrite (adv_self O). splits; auto using quiet_refl. now apply sorted_order.
        -- intros t st (l & h & n & -> & Q & Hh & Ph & So). apply (Go (h, adv (stack cs) n s) l); auto. cbn. apply (adv_mem O).
        -- intros st [(l & h & n & -> & Q & Hh & Ph & So)|(l & h & n & -> & Q & Hh & Ph & So)]; (split; [cbn; apply (adv_mem O)|exists (l, snd a); now apply St]).
    + apply wp_bind, wp_own.
      assert (St : forall o' l, wf o' [hd :: l] [] -> Permutation l B -> fit B (Sequenced V jn jp :: cs) (o', s) (l, snd a)).
      { intros o' l Wf P. assert (Fa := fit_sub Ft). cbn in Fa. destruct Fa as [X1 X2 X3 X4 X5]. split; auto; cbn; auto; now split. }
      eapply wp_conseq; [apply (@q_load_any B o hd [] [] ar)|..]; auto.
      * rewrite <- Ld1. exact R.
      * intros t o' (l & P & Wf). apply (Go (o', s) l); auto.
      * intros o' (l & P & Wf). split; [reflexivity|exists (l, snd a); now apply St].
    + apply wp_bind. unfold rnd_has in R. rewrite Ld1 in R.
      assert (St : forall o' n l, arr o' (l ++ [hd]) -> Permutation l B -> fit B (RandomAccess V ju :: cs) (o', adv (stack cs) n s) (l, snd a)).
      { intros o' n l A P. assert (Fa := fit_adv n F (fit_sub Ft)). cbn in Fa. destruct Fa as [X1 X2 X3 X4 X5]. split; auto; cbn; auto; now split. }
      assert (W := @C44_random_access_any throws (RndOps.adv_tk o (tt_ cs s)) hd B ar (RndOps.arr_tk _ R)). unfold wp, sync in *. cbn [fst snd] in *.
      destruct (r_load throws B _ (RndOps.adv_tk o (tt_ cs s))) as [t o'|o'|]; auto.
      * destruct W as (l & P & A & _). apply (Go (o', adv (stack cs) (rtk o') s) l); auto. cbn. apply (adv_mem O).
      * destruct W as (l & P & A & _). split; [cbn; apply (adv_mem O)|exists (l, snd a); now apply St].
    + apply (Go (o, s) (fst a)); auto. destruct a; exact Ft.
Qed.
(** ** the elements *)
Lemma stable_last below (B l l1 l2 : list node) x : swo below -> NoDup (x :: B) -> stable_of below B l -> l = l1 ++ l2 ->
  (forall y, In y l1 -> below x y = false) -> (forall y, In y l2 -> below x y = true) -> stable_of below (B ++ [x]) (l1 ++ x :: l2).
Proof.
  intros W N (P & So & St) -> L1 L2. apply NoDup_cons_iff in N as (Nx & N). split; [|split].
  - rewrite <- Permutation_middle, <- Permutation_cons_append. now constructor.
  - apply sorted_mid. splits; auto; apply Forall_forall; auto. intros y I. eapply below_asym; eauto.
  - intros y z Sm Bf. apply bef_app_inv in Bf as [Bf|[Bf|(Iy & [<-|[]])]].
    + apply (bef_sub (l := l1 ++ l2)); [|now apply St]. apply subseq_app; [apply subseq_refl|]. constructor. apply subseq_refl.
    + destruct Bf as ([|? m1] & m2 & [= E] & Iz). cbn in Iz. 1: subst; easy. destruct m1; discriminate.
    + apply bef_app; [|now left]. assert (J : In y (l1 ++ l2)) by (eapply Permutation_in; [symmetry; exact P|auto]).
      apply in_app_iff in J as [J|J]; auto. apply L2 in J. apply same_iff in Sm as (_ & C). congruence.
Qed.
Lemma lower_ext K (key : V -> K) lt (vl vl' : node -> V) x y : vl' x = vl x -> vl' y = vl y -> lower key lt vl' x y = lower key lt vl x y.
Proof. intros A B. unfold lower. now rewrite A, B. Qed.
Lemma stable_ext K (key : V -> K) lt (vl vl' : node -> V) B l : (forall x, In x B -> vl' x = vl x) ->
  stable_of (lower key lt vl) B l -> stable_of (lower key lt vl') B l.
Proof.
  intros Ev (P & So & St). assert (I : forall x y, bef l x y -> In x B /\ In y B).
  { intros x y Bf. apply bef_in in Bf as (I1 & I2). split; eapply Permutation_in; eauto. }
  split; [|split]; auto.
  - apply ss_bef. intros x y Bf. destruct (I x y Bf). rewrite (lower_ext key lt vl vl') by auto. apply (bef_ss So Bf).
  - intros x y Sm Bf. apply St; auto. destruct (bef_in Bf). unfold SaveList.same in *. now rewrite !(lower_ext key lt vl vl') in Sm by auto.
Qed.
Lemma loaded_ins cs var vl vl' B x : Forall (@code_ok V) cs -> NoDup (x :: B) -> ~ In hd B -> (forall y, In y B -> vl' y = vl y) -> forall a a',
  Forall (fun l => Permutation l B) (els (S0 cs) a) ->
  Forall2 (loaded B vl) cs (els (S0 cs) a) -> ains (S0 cs) var vl' (Some hd) a x a' -> Forall2 (loaded (B ++ [x]) vl') cs (els (S0 cs) a').
Proof.
  intros F N Nh Ev. induction F as [|c cs H F IH]; intros a a' P Ld Is; [constructor|].
  cbn in P, Ld, Is. inversion P as [|? ? P1 Ps]; subst. inversion Ld as [|? ? ? ? L1 Ls]; subst. destruct Is as (Is & Iss).
  cbn. constructor; [|eapply IH; eauto]. destruct c; cbn in *; subst; auto.
  - destruct uniq; auto. assert (St := @stable_ext K key lt vl vl' B (fst a) Ev L1).
    destruct (@ins_end V K key lt H vl' hd (Some hd) (fst a) x (fst a')) as (l1 & l2 & E & -> & A1 & A2); auto.
    + intros I. apply Nh. eapply Permutation_in; eauto.
    + apply St.
    + eapply stable_last; eauto. now apply lower_swo.
Qed.

Section Box.
Variable cs : list (code V).
Hypothesis St_ : setting pick hd cs.
Notation box := (box throws pick hd cs).
Notation good := (@ContOk.good V dv hd box (S0 cs) (rep0 cs)).
Notation pairwise := (ForallOrdPairs (fun v w => ~ conflict cs w v)).
Lemma pairs_app {A} (R : A -> A -> Prop) l1 l2 v w : ForallOrdPairs R (l1 ++ v :: l2) -> In w l1 -> R w v.
Proof.
  induction l1 as [|x l1 IH]; cbn; intros F; [easy|]. inversion F as [|? ? F1 F2]; subst. intros [<-|I]; auto.
  rewrite Forall_forall in F1. apply F1. rewrite in_app_iff. cbn. auto.
Qed.

Lemma wp_tickb {A} (k : M (St box) A) (Q : A -> St box -> Prop) (E : St box -> Prop) s :
  (throws (tt_ cs s) = false -> wp k Q E (adv box (S (tt_ cs s)) s)) -> (throws (tt_ cs s) = true -> E (adv box (S (tt_ cs s)) s)) ->
  wp (basM box (tick throws) ;;; k) Q E s.
Proof.
  intros H1 H2. unfold wp, bind, basM, lensM, tick, adv in *. unfold Client.box in *. destruct (throws (tt_ cs s)); [now apply H2|now apply H1].
Qed.
Lemma good_tick s a lk nh n : good s a lk nh -> good (adv box n s) a lk nh.
Proof. intros G. unfold adv. exact (good_bset_tk (box_ok throws dv St_) n G). Qed.

(** every element is put at the end of what is there, as far as the indices allow *)
Lemma items_loop nh n : forall its s a B, good s a (rev B) nh -> Forall2 (loaded B (vv cs s)) cs (els (S0 cs) a) ->
  wp (load_items throws pick hd cs n its)
    (fun m s' => n <= length its /\ map fst m = map fst (firstn n its) /\ quiet throws (tt_ cs s) (tt_ cs s') /\
       (exists fr, mm cs s' = fr ++ mm cs s) /\ (forall x, In x B -> vv cs s' x = vv cs s x) /\
       map (vv cs s') (map snd m) = map snd (firstn n its) /\
       exists a', good s' a' (rev (B ++ map snd m)) nh /\ Forall2 (loaded (B ++ map snd m) (vv cs s')) cs (els (S0 cs) a'))
    (fun s' => (exists fr, mm cs s' = fr ++ mm cs s) /\ (exists a' lk', good s' a' lk' nh) /\
       (n <= length its -> pairwise (map (vv cs s) B ++ map snd its) -> blown throws (tt_ cs s) (tt_ cs s'))) s.
Proof.
  assert (O : OK throws pick dv hd (stack cs) (S0 cs) (rep0 cs) (sshell throws pick hd (mem_world V) (fun _ (_ : unit) => True) cs)) by exact (box_ok throws dv St_).
  induction n as [|n IH]; intros its s a B G Ld; cbn [load_items].
  - apply wp_ret. cbn [map firstn]. rewrite app_nil_r. splits; auto using quiet_refl; [lia|exists []; auto|eauto].
  - destruct its as [|(p, v) its].
    + apply wp_throw. splits; [exists []; auto|eauto|cbn; lia].
    + apply wp_tickb; intros Th.
      2:{ unfold Client.box. rewrite (adv_mem O), (adv_tk O). splits; [exists []; auto| |intros _ _; now apply blown_S]. exists a, (rev B). now apply good_tick. }
      set (s1 := adv box (S (tt_ cs s)) s). assert (G1 : good s1 a (rev B) nh) by now apply good_tick.
      assert (M1 : mm cs s1 = mm cs s) by apply (adv_mem O). assert (T1 : tt_ cs s1 = S (tt_ cs s)) by apply (adv_tk O).
      assert (V1 : vv cs s1 = vv cs s) by now apply vals_mem.
      apply wp_bind. eapply wp_conseq; [apply (insert_spec (s_pick St_) (box_ok throws dv St_) v (Some hd) G1)|..].
      * now left.
      * intros (x, b) s2 (Q & X). cbn [fst snd] in *. unfold Client.box in Q, X. rewrite T1 in Q. assert (Q2 : quiet throws (tt_ cs s) (tt_ cs s2)) by (eapply quiet_trans; [apply quiet_S; exact Th|exact Q]).
        destruct b.
        -- destruct X as (Nx & M & Vx & Vo & Nc & a2 & G2 & Is). rewrite M1 in M.
           assert (Vb : forall y, In y B -> vv cs s2 y = vv cs s y) by (intros y I; rewrite Vo, V1; auto; now apply -> in_rev).
           assert (G2' : good s2 a2 (rev (B ++ [x])) nh) by (rewrite rev_app_distr; exact G2).
           apply wp_bind. eapply wp_conseq; [apply (IH its s2 a2 (B ++ [x]) G2')|..].
           ++ assert (Nd := good_nodup G2). rewrite !NoDup_cons_iff in Nd. cbn in Nd. rewrite !in_app_iff, NoDup_cons_iff, NoDup_app_iff, <- !in_rev in Nd. destruct Nd as (N1 & N2 & N3 & N4 & _).
              eapply loaded_ins; [apply (s_codes St_)| | | | |exact Ld|exact Is]; auto.
              ** rewrite in_app_iff, <- in_rev in N3. constructor; [tauto|]. rewrite <- (rev_involutive B). now apply NoDup_rev.
              ** eapply Forall_impl; [|apply (i_perm (g_inv G))]. intros l P. cbn beta in P. rewrite P. symmetry. apply Permutation_rev.
           ++ intros m s' (L & E1 & Q' & (fr & M') & Vo' & Ev & a' & G' & Ld'). apply wp_ret. cbn [length firstn map fst snd]. rewrite <- app_assoc in G', Ld'. splits; auto.
              ** lia.
              ** f_equal. exact E1.
              ** eapply quiet_trans; eauto.
              ** exists (fr ++ [(x, Some v)]). rewrite M', M, <- app_assoc. reflexivity.
              ** intros y I. rewrite Vo' by (apply in_app_iff; auto). auto.
              ** f_equal; auto. rewrite Vo'; auto. apply in_app_iff. cbn. auto.
              ** exists a'. split; auto.
           ++ intros s' ((fr & M') & Ge & Bl). splits; auto.
              ** exists (fr ++ [(x, Some v)]). rewrite M', M, <- app_assoc. reflexivity.
              ** intros L Pw. eapply blown_trans; [exact Q2|]. apply Bl; [cbn in L; lia|]. rewrite map_app, <- app_assoc. cbn [map app] in *. rewrite Vx.
                 replace (map (vv cs s2) B) with (map (vv cs s) B); [exact Pw|]. apply map_ext_in. intros y I. symmetry. auto.
        -- destruct X as (Ix & Cf & M & a2 & G2 & Sm). apply wp_throw. rewrite M1 in M. splits.
           ++ exists []. exact M.
           ++ eauto.
           ++ intros L Pw. exfalso. apply to_clash in Cf. rewrite V1 in Cf. cbn [map] in Pw. apply in_rev in Ix.
              exact (@pairs_app _ _ _ _ _ _ Pw (in_map (vv cs s) _ _ Ix) Cf).
      * intros s2 (Bl & M & a2 & G2 & Sm). unfold Client.box in Bl, M. rewrite T1 in Bl. rewrite M1 in M. splits.
        -- exists []. exact M.
        -- eauto.
        -- intros _ _. eapply blown_trans; [apply quiet_S; exact Th|exact Bl].
Qed.
(** ** load *)
Lemma good_fit s a B nh : good s a (rev B) nh -> fit B cs s a.
Proof.
  intros G. split; try apply G.
  - eapply Forall_impl; [|apply (i_perm (g_inv G))]. intros l P. cbn beta in P. rewrite P. symmetry. apply Permutation_rev.
  - intros x I. apply (i_live (g_inv G)). now apply -> in_rev.
  - etransitivity; [apply (g_cnt G)|apply rev_length].
Qed.
Lemma fit_good s a B nh s' a' : good s a (rev B) nh -> fit B cs s' a' -> mm cs s' = mm cs s -> good s' a' (rev B) nh.
Proof.
  intros G [R Ok P L C] M. destruct (g_inv G) as [I1 I2 I3 I4 I5]. split; auto; unfold Client.box in *.
  - split; auto.
    + eapply Forall_impl; [|exact P]. intros l Pl. cbn beta in Pl. rewrite Pl. apply Permutation_rev.
    + intros x I. apply L. now apply in_rev.
    + now rewrite M.
    + now rewrite M.
  - now rewrite rev_length.
  - rewrite M. apply (g_mem G).
Qed.
Lemma loaded_none vl (ls : list (list node)) : length ls = length cs -> Forall (eq []) ls -> Forall2 (loaded [] vl) cs ls.
Proof.
  clear. revert ls. induction cs as [|c cs' IH]; intros ls L F; destruct ls as [|l ls]; try discriminate; constructor; inversion F; subst.
  - destruct c; cbn; auto. destruct uniq; auto. split; [constructor|split; [constructor|]]. intros x y _ (m & n & E & _). destruct m; discriminate.
  - apply IH; auto.
Qed.
Definition kept_nodes (s s' : St box) (nh : list node) : Prop := forall x, In x nh -> look (mm cs s') x = look (mm cs s) x.
Lemma front_kept s s' a' lk nh fr : good s' a' lk nh -> mm cs s' = fr ++ mm cs s -> (forall x, In x nh -> In x (map fst (mm cs s))) -> kept_nodes s s' nh.
Proof.
  intros G M Sub x I. rewrite M, look_app. assert (N := i_mem (g_inv G)). unfold Client.box in N. apply NoDup_cons_iff in N as (_ & N). rewrite M, map_app, NoDup_app_iff in N.
  destruct (look fr x) eqn:E; auto. exfalso. destruct N as (_ & _ & N). apply (N x); auto. clear - E. induction fr as [|(y, o') fr IH]; [discriminate|]. cbn in *.
  destruct (Nat.eqb_spec x y); auto.
Qed.
Lemma clear_start s a lk nh : good s a lk nh ->
  wp (c_clear box) (fun _ s' => tt_ cs s' = tt_ cs s /\ kept_nodes s s' nh /\
    exists a', good s' a' (rev []) nh /\ Forall2 (loaded [] (vv cs s')) cs (els (S0 cs) a')) (fun _ => False) s.
Proof.
  intros G. eapply wp_conseq; [apply (clear_spec (box_ok throws dv St_) (has_index St_) G)|..]; [|auto].
  intros u s' (T & M & a' & G' & E). unfold Client.box in *. splits; auto.
  - intros x I. rewrite M. apply look_without. eapply good_out; eauto.
  - exists a'. split; auto. apply loaded_none; auto. apply spec_len.
Qed.
Lemma nh_mem s a lk nh x : good s a lk nh -> In x nh -> In x (map fst (mm cs s)).
Proof. intros G I. eapply Permutation_in; [symmetry; apply (g_mem G)|]. right. apply in_app_iff. auto. Qed.
Lemma kept_trans s1 s2 s3 nh : kept_nodes s1 s2 nh -> kept_nodes s2 s3 nh -> kept_nodes s1 s3 nh.
Proof. intros A B x I. now rewrite B, A. Qed.
Lemma nulls s a B nh : good s a (rev B) nh -> NoDup B /\ ~ In null (hd :: B).
Proof.
  intros G. assert (N := good_nodup G). rewrite !NoDup_cons_iff, NoDup_app_iff in N. cbn in N. rewrite !in_app_iff, <- !in_rev in N. split; [|cbn; tauto].
  rewrite <- (rev_involutive B). now apply NoDup_rev.
Qed.

Lemma load_any_track r s a lk nh : good s a lk nh ->
  wp (c_load_track throws pick hd cs r)
    (fun _ s' => kept_nodes s s' nh /\ exists a' lk', good s' a' lk' nh)
    (fun s' => kept_nodes s s' nh /\ exists a' lk', good s' a' lk' nh) s.
Proof.
  intros G. assert (O : OK throws pick dv hd (stack cs) (S0 cs) (rep0 cs) (sshell throws pick hd (mem_world V) (fun _ (_ : unit) => True) cs)) by exact (box_ok throws dv St_).
  unfold c_load_track. apply wp_bind. eapply wp_conseq; [apply (clear_start G)|..]; [|intros s' []].
  intros u s1 (T1 & K1 & a1 & G1 & L1).
  assert (Kt : kept_nodes s (adv box (S (tt_ cs s1)) s1) nh).
  { intros x I. unfold Client.box. rewrite (adv_mem O). now apply K1. }
  assert (Gt := good_tick (S (tt_ cs s1)) G1). apply wp_tickb; intros Th; [|eauto].
  set (s2 := adv box (S (tt_ cs s1)) s1) in *. assert (M2 : mm cs s2 = mm cs s1) by apply (adv_mem O). assert (V2 : vv cs s2 = vv cs s1) by now apply vals_mem.
  rewrite <- V2 in L1. apply wp_bind. eapply wp_conseq; [apply (@items_loop nh (sv_count r) (sv_items r) s2 a1 [] Gt L1)|..].
  - intros m s3 (L & _ & _ & (fr & M3) & _ & _ & a3 & G3 & L3). cbn [app] in G3, L3. apply wp_bind. destruct (nulls _ G3) as (NB & Nn).
    assert (K3 : kept_nodes s s3 nh). { eapply kept_trans; [exact Kt|]. eapply front_kept; eauto. intros x. apply nh_mem with (1 := Gt). }
    assert (Fin : forall s', mm cs s' = mm cs s3 /\ (exists a', fit (map snd m) cs s' a') -> kept_nodes s s' nh /\ exists a' lk', good s' a' lk' nh).
    { intros s' (M & a' & Ft). split; [intros x I; rewrite M; now apply K3|]. exists a', (rev (map snd m)). eapply fit_good; eauto. }
    eapply wp_conseq; [apply (@load_anything (map snd m) cs NB Nn (s_codes St_) s3 a3 (map (option_map (track hd (sv_header r) m)) (sv_order r)) (good_fit _ G3) L3)|..].
    + intros t s' X. apply wp_ret. now apply Fin.
    + exact Fin.
  - intros s3 ((fr & M3) & (a3 & lk3 & G3) & _). split; [|eauto]. eapply kept_trans; [exact Kt|]. eapply front_kept; eauto. intros x. apply nh_mem with (1 := Gt).
Qed.
Lemma load_any_ok r s a lk nh : good s a lk nh ->
  wp (c_load throws pick hd cs r)
    (fun _ s' => kept_nodes s s' nh /\ exists a' lk', good s' a' lk' nh)
    (fun s' => kept_nodes s s' nh /\ exists a' lk', good s' a' lk' nh) s.
Proof. intros G. unfold c_load. apply wp_bind. eapply wp_conseq; [apply (load_any_track r G)|intros f s' K; now apply wp_ret|auto]. Qed.

(** an archive with the elements [base] whose values are [vl]; [Ls]: the sequences of the indices *)
Record taken (hs : node) (vl : node -> V) (base : list node) (Ls : list (list node)) (r : stored V) : Prop := mkTk {
  t_cnt : sv_count r = length base;
  t_its : sv_items r = map (fun x => (x, vl x)) base;
  t_hdr : sv_header r = hs;
  t_ord : forall f vl', inj_on f base -> (forall x, In x base -> vl' (f x) = vl x) ->
    streams (map f base) vl' cs (map (map f) Ls) (map (option_map f) (sv_order r)) }.
Lemma track_in hs m x y : ~ In hs (map fst m) -> NoDup (map fst m) -> In (x, y) m -> track hd hs m x = y.
Proof.
  intros Nh N I. unfold track. assert (x <> hs). { intros ->. apply Nh. apply in_map_iff. exists (hs, y). auto. }
  apply Nat.eqb_neq in H as ->. clear Nh. induction m as [|(x', y') m IH]; [easy|]. cbn in N. apply NoDup_cons_iff in N as (N1 & N2). cbn.
  destruct I as [[= -> ->]|I]; [now rewrite Nat.eqb_refl|]. destruct (Nat.eqb_spec x' x) as [->|]; auto. exfalso. apply N1. apply in_map_iff. exists (x, y). auto.
Qed.
Lemma track_map hs m : ~ In hs (map fst m) -> NoDup (map fst m) -> map (track hd hs m) (map fst m) = map snd m.
Proof. intros Nh N. rewrite map_map. apply map_ext_in. intros (x, y) I. cbn. now apply track_in. Qed.
Lemma legal_map (c : code V) (vl vl' : node -> V) f l : inj_on f l -> (forall x, In x l -> vl' (f x) = vl x) -> legal c vl l -> legal c vl' (map f l).
Proof.
  intros Inj Ev. destruct c; cbn; auto.
  - intros S. induction S as [|x l S IH H]; cbn; constructor.
    + apply IH; [intros y z Iy Iz; apply Inj; now right|intros y I; apply Ev; now right].
    + apply Forall_forall. intros z I. apply in_map_iff in I as (y & <- & I). rewrite !Ev by (cbn; auto). rewrite Forall_forall in H. apply (H y I).
  - intros H k. destruct (H k) as ((l1 & l2 & E) & Hu).
    assert (Eh : HashSeq.having key eq vl' k (map f l) = map f (HashSeq.having key eq vl k l)).
    { unfold HashSeq.having. apply filter_map_in. intros x I. now rewrite Ev. }
    rewrite Eh. split; [|intros U; rewrite map_length; auto]. exists (map f l1), (map f l2). rewrite <- !map_app. now f_equal.
Qed.
Lemma track_out hs m x : x <> hs -> ~ In x (map fst m) -> track hd hs m x = null.
Proof.
  intros Nh N. unfold track. apply Nat.eqb_neq in Nh as ->. induction m as [|(x', y') m IH]; cbn; auto. cbn in N. destruct (Nat.eqb_spec x' x) as [->|]; tauto.
Qed.
Theorem load_saved_ok hs vl base Ls r s a lk nh : good s a lk nh -> taken hs vl base Ls r -> NoDup (null :: hs :: base) ->
  Forall (fun l => Permutation l base) Ls -> Forall2 (fun c l => legal c vl l) cs Ls ->
  pairwise (map vl base) ->
  wp (c_load_track throws pick hd cs r)
    (fun f s' => kept_nodes s s' nh /\ quiet throws (tt_ cs s) (tt_ cs s') /\ f hs = hd /\ f null = null /\
       exists a', inj_on f base /\ (forall x, In x base -> vv cs s' (f x) = vl x) /\ good s' a' (rev (map f base)) nh /\
         each restored cs (els (S0 cs) a') (map (map f) Ls))
    (fun s' => kept_nodes s s' nh /\ blown throws (tt_ cs s) (tt_ cs s') /\ exists a' lk', good s' a' lk' nh) s.
Proof.
  intros G [Tc Ti Th_ To] N P Lg Pw. assert (O : OK throws pick dv hd (stack cs) (S0 cs) (rep0 cs) (sshell throws pick hd (mem_world V) (fun _ (_ : unit) => True) cs)) by exact (box_ok throws dv St_).
  apply NoDup_cons_iff in N as (N0 & N). apply NoDup_cons_iff in N as (Nh & N).
  unfold c_load_track. apply wp_bind. eapply wp_conseq; [apply (clear_start G)|..]; [|intros s' []].
  intros u s1 (T1 & K1 & a1 & G1 & L1).
  assert (Kt : kept_nodes s (adv box (S (tt_ cs s1)) s1) nh).
  { intros x I. unfold Client.box. rewrite (adv_mem O). now apply K1. }
  assert (Gt := good_tick (S (tt_ cs s1)) G1). assert (T2 : tt_ cs (adv box (S (tt_ cs s1)) s1) = S (tt_ cs s1)) by apply (adv_tk O).
  apply wp_tickb; intros Th; [|splits; [exact Kt| |eauto]; rewrite T2, T1 in *; now apply blown_S].
  set (s2 := adv box (S (tt_ cs s1)) s1) in *. assert (M2 : mm cs s2 = mm cs s1) by apply (adv_mem O). assert (V2 : vv cs s2 = vv cs s1) by now apply vals_mem.
  assert (Q2 : quiet throws (tt_ cs s) (tt_ cs s2)) by (rewrite T2, T1 in *; now apply quiet_S).
  rewrite <- V2 in L1. apply wp_bind. eapply wp_conseq; [apply (@items_loop nh (sv_count r) (sv_items r) s2 a1 [] Gt L1)|..].
  - intros m s3 (L & E1 & Q3 & (fr & M3) & _ & Ev & a3 & G3 & L3). cbn [app] in G3, L3. apply wp_bind. destruct (nulls _ G3) as (NB & Nn).
    assert (K3 : kept_nodes s s3 nh). { eapply kept_trans; [exact Kt|]. eapply front_kept; eauto. intros x. apply nh_mem with (1 := Gt). }
    rewrite firstn_all2 in E1, Ev by (rewrite Ti, map_length; lia). rewrite Ti, map_map in E1. cbn in E1. rewrite map_id in E1. rewrite Ti in Ev.
    set (f := track hd (sv_header r) m). rewrite <- E1 in Nh, N, N0. rewrite <- Th_ in Nh, N0.
    assert (F1 : f hs = hd) by (unfold f, track; now rewrite Th_, Nat.eqb_refl). assert (F2 : f null = null) by (apply track_out; intros X; apply N0; [left; congruence|now right]). assert (Em : map f base = map snd m) by (rewrite <- E1; now apply track_map).
    assert (Inj : inj_on f base).
    { intros x y Ix Iy E. rewrite <- Em in NB. clear - Ix Iy E NB. induction base as [|z b IH]; [easy|]. cbn in NB. apply NoDup_cons_iff in NB as (N1 & N2).
      destruct Ix as [->|Ix], Iy as [->|Iy]; auto; exfalso; apply N1; [rewrite E|rewrite <- E]; now apply in_map. }
    assert (Vf : forall x, In x base -> vv cs s3 (f x) = vl x).
    { rewrite <- Em, !map_map in Ev. clear - Ev. induction base as [|z b IH]; [easy|]. cbn in Ev. injection Ev as E E'. intros x [<-|I]; auto. }
    eapply wp_conseq; [rewrite <- (app_nil_r (map (option_map f) (sv_order r)));
      apply (@load_emitted (map snd m) [] cs NB Nn (s_codes St_) s3 a3 (map (map f) Ls) _ (good_fit _ G3) L3)|..].
    + rewrite <- Em. apply To; auto.
    + revert Vf. generalize (vv cs s3) as vl'. clear - Lg P Inj. intros vl' Vf. induction Lg as [|c l cs' Ls H Hs IH]; cbn; constructor; inversion P; subst; auto.
      eapply legal_map; [| |exact H].
      * intros x y Ix Iy. apply Inj; eapply Permutation_in; eauto.
      * intros x I. apply Vf. eapply Permutation_in; eauto.
    + rewrite <- Em. clear - P. induction P; cbn; constructor; auto. now apply Permutation_map.
    + intros t s' (_ & M & Q & a' & Ft & R). apply wp_ret. splits.
      * intros x I. rewrite M. now apply K3.
      * eapply quiet_trans; [exact Q2|]. eapply quiet_trans; eauto.
      * exact F1.
      * exact F2.
      * exists a'. splits; auto.
        -- intros x I. rewrite (vals_mem dv (bget (stack cs) s3)); auto.
        -- rewrite Em. eapply fit_good; eauto.
    + intros s' (M & Q & a' & Ft). splits.
      * intros x I. rewrite M. now apply K3.
      * eapply blown_trans; [exact Q2|]. eapply blown_trans; eauto.
      * exists a', (rev (map snd m)). eapply fit_good; eauto.
  - intros s3 ((fr & M3) & (a3 & lk3 & G3) & Bl). splits; [|eapply blown_trans; [exact Q2|]|eauto].
    + eapply kept_trans; [exact Kt|]. eapply front_kept; eauto. intros x. apply nh_mem with (1 := Gt).
    + apply Bl; [rewrite Ti, map_length; lia|]. cbn [map app]. rewrite Ti, map_map. exact Pw.
Qed.

(** ** save *)
Lemma good_fit_perm s a lk B nh : Permutation B lk -> good s a lk nh -> fit B cs s a.
Proof.
  intros P G. split; try apply G.
  - eapply Forall_impl; [|apply (i_perm (g_inv G))]. intros l Pl. cbn beta in Pl. rewrite Pl. now symmetry.
  - intros x I. apply (i_live (g_inv G)). eapply Permutation_in; eauto.
  - rewrite (Permutation_length P). apply (g_cnt G).
Qed.
Lemma items_of s xs : (forall x, In x xs -> live (bget box s) x) -> items throws pick hd cs xs s = Ret (map (fun x => (x, vv cs s x)) xs) s.
Proof.
  assert (O := box_ok throws dv St_). induction xs as [|x xs IH]; intros L; [reflexivity|]. cbn [items map]. unfold bind. destruct (L x (or_introl eq_refl)) as (v & Lk).
  unfold basM, lensM, value. unfold Client.box in *. rewrite Lk, (o_gs O). rewrite IH by (intros y I; apply L; now right). unfold ret. do 3 f_equal. unfold val. now rewrite Lk.
Qed.
Variables (jprev : nat -> nat) (jord : nat -> bool) (jtop jent : nat -> nat) (jpiles : nat).
Theorem save_box_ok s a lk nh : good s a lk nh ->
  wp (c_save throws pick hd cs jprev jord jtop jent jpiles)
    (fun r s' => (exists n, quiet throws (tt_ cs s) n /\ s' = adv box n s) /\
       taken hd (vv cs s) (List.hd [] (els (S0 cs) a)) (els (S0 cs) a) r)
    (fun s' => exists n, blown throws (tt_ cs s) n /\ s' = adv box n s) s.
Proof.
  intros G. assert (O : OK throws pick dv hd (stack cs) (S0 cs) (rep0 cs) (sshell throws pick hd (mem_world V) (fun _ (_ : unit) => True) cs)) by exact (box_ok throws dv St_).
  unfold c_save. apply wp_tickb; intros Th.
  2:{ exists (S (tt_ cs s)). split; auto. now apply blown_S. }
  set (s1 := adv box (S (tt_ cs s)) s). assert (G1 : good s1 a lk nh) by now apply good_tick.
  assert (M1 : mm cs s1 = mm cs s) by apply (adv_mem O). assert (T1 : tt_ cs s1 = S (tt_ cs s)) by apply (adv_tk O).
  assert (V1 : vv cs s1 = vv cs s) by now apply vals_mem.
  assert (Ne := has_index St_ a). set (base := List.hd [] (els (S0 cs) a)).
  assert (Nth : nth_error (els (S0 cs) a) 0 = Some base) by (unfold base; destruct (els (S0 cs) a); [easy|reflexivity]).
  assert (Pb : Permutation base lk). { assert (P := i_perm (g_inv G)). rewrite Forall_forall in P. apply P. eapply nth_error_In; eauto. }
  assert (Nb : NoDup (base ++ [hd])).
  { assert (N := good_nodup G). rewrite !NoDup_cons_iff, NoDup_app_iff, in_app_iff in N. rewrite <- Permutation_cons_append. constructor.
    - rewrite Pb. tauto.
    - eapply NoDup_perm; [symmetry; exact Pb|tauto]. }
  assert (Nb1 : NoDup base) by (rewrite NoDup_app_iff in Nb; tauto).
  assert (Cn : cget box s1 = length base) by (rewrite (Permutation_length Pb); apply (g_cnt G1)).
  eapply wp_bind_ret; [reflexivity|]. fold (Client.box throws pick hd cs). rewrite Cn.
  eapply wp_bind_ret; [exact (@CopyOk.first_begin_ok V throws pick hd cs s1 a St_ (g_rep G1))|]. fold base.
  eapply wp_bind_ret.
  { apply walk_ok; [reflexivity|exact Nb|]. intros l1 x l2 E. eapply next_at_ok; [exact (g_rep G1)| |exact Nth|exact E].
    eapply Forall_impl; [|apply (i_perm (g_inv G1))]. intros l P. cbn beta in P. rewrite (Permutation_length P). unfold Client.box in Cn. rewrite Cn, (Permutation_length Pb). lia. }
  eapply wp_bind_ret.
  { apply items_of. intros x I. apply (i_live (g_inv G1)). eapply Permutation_in; eauto. }
  apply wp_bind. eapply wp_conseq; [apply (@save_all base cs Nb1 (s_codes St_) s1 a (added base jprev jord jtop jent jpiles) (good_fit_perm Pb G1) (added_ready _ _ _ _ _ _))|..].
  - intros (ar, m') s' (_ & (n & Q & ->) & St). apply wp_ret. cbn [fst snd] in St. split.
    + exists n. rewrite T1 in Q. split; [eapply quiet_trans; [apply quiet_S; exact Th|exact Q]|]. unfold s1, Client.box. apply (adv_adv O).
    + split; cbn [sv_count sv_items sv_header sv_order fst]; auto.
      * now rewrite V1.
      * intros f vl' Inj Ev. apply St; auto. now rewrite V1.
  - intros s' (n & Q & ->). exists n. rewrite T1 in Q. split; [eapply blown_trans; [apply quiet_S; exact Th|exact Q]|]. unfold s1, Client.box. apply (adv_adv O).
Qed.
Lemma pairs_of s a lk nh base : good s a lk nh -> Permutation base lk -> pairwise (map (vv cs s) base).
Proof.
  intros G P. assert (N := good_nodup G). rewrite !NoDup_cons_iff, NoDup_app_iff in N. destruct N as (_ & _ & N & _).
  assert (Nb : NoDup base) by (eapply NoDup_perm; [symmetry; exact P|auto]).
  assert (I : incl base lk) by (intros x; now apply Permutation_in). clear P.
  induction base as [|x b IH]; cbn; constructor; apply NoDup_cons_iff in Nb as (N1 & N2).
  - apply Forall_forall. intros v J. apply in_map_iff in J as (y & <- & J). intros C. apply to_clash with (hd := hd) (wready := fun _ (_ : unit) => False) (wrem := fun _ a => a) in C.
    revert C. eapply spec_noconf; [apply (s_codes St_)|apply (g_ok G)| |].
    + intros l Il. assert (Pl := i_perm (g_inv G)). rewrite Forall_forall in Pl. specialize (Pl l Il). split; (eapply Permutation_in; [symmetry; exact Pl|]); apply I; [now right|now left].
    + intros ->. tauto.
  - apply IH; auto. intros y J. apply I. now right.
Qed.
End Box.
End Serial.
