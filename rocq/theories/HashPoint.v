(** Read-only operations of hashed indices: where to link, lookup, traversal. *)
From Verif Require Import Prelude Layer LayerBase HashModel HashIdx HashHeap HashAlg HashLink HashLay HashOps HashRead HashSpec.
Set Implicit Arguments.

Lemma set_hp_self t : set_hp (hp t) t = t.
Proof. now destruct t. Qed.

Lemma nnode_hd hd n I : wfi n I -> nnode hd I = List.hd hd (elems I).
Proof.
  destruct I as [|(i, g) I]; [reflexivity|]. intros W. apply wfi_cons in W as ((_ & Sg & _) & _). apply shaped_ne in Sg.
  destruct g as [|x g]; [easy|]. reflexivity.
Qed.
(** where an element is among the segments *)
Lemma elems_cut x : forall I l1 l2, elems I = l1 ++ x :: l2 ->
  exists I1 i g1 g2 I2, I = I1 ++ (i, g1 ++ x :: g2) :: I2 /\ l1 = elems I1 ++ g1 /\ l2 = g2 ++ elems I2.
Proof.
  induction I as [|(i, g) I IH]; intros l1 l2 E; [now destruct l1|]. rewrite elems_cons in E.
  assert (C : (exists g2, g = l1 ++ x :: g2 /\ l2 = g2 ++ elems I) \/ exists m, l1 = g ++ m /\ elems I = m ++ x :: l2).
  { clear IH. revert l1 E. induction g as [|y g IH]; intros l1 E.
    - right. exists l1. auto.
    - destruct l1 as [|z l1]; cbn in E; injection E as -> E.
      + left. exists g. auto.
      + destruct (IH _ E) as [(g2 & -> & ->)|(m & -> & Em)]; [left; exists g2; auto|right; exists m; auto]. }
  destruct C as [(g2 & -> & ->)|(m & -> & Em)].
  - exists [], i, l1, g2, I. auto.
  - destruct (IH _ _ Em) as (I1 & j & g1 & g2 & I2 & -> & -> & ->). exists ((i, g) :: I1), j, g1, g2, I2.
    splits; auto. rewrite elems_cons. now rewrite app_assoc.
Qed.
(** the segments of one bucket are together *)
Lemma contig_cut i : forall I, contig (map fst I) -> exists I1 M I2, I = I1 ++ M ++ I2 /\
  (forall it : item, In it M -> fst it = i) /\ (forall it : item, In it (I1 ++ I2) -> fst it <> i).
Proof.
  induction I as [|(j, g) I IH]; intros C; [exists [], [], []; splits; easy|].
  assert (C' : contig (map fst I)).
  { intros l1 x l2 k E A B. apply (C (j :: l1) x l2 k); cbn [map fst app]; [now rewrite E|now right|auto]. }
  destruct (IH C') as (I1 & M & I2 & -> & HM & HN). destruct (Nat.eq_dec j i) as [->|N].
  - destruct M as [|(k, m) M].
    + exists [], [(i, g)], (I1 ++ I2). splits; auto. intros it [<-|[]]. reflexivity.
    + assert (k = i) as -> by (apply (HM (k, m)); now left). destruct I1 as [|(j, h) I1].
      * exists [], ((i, g) :: (i, m) :: M), I2. splits; auto. intros it [<-|H]; [reflexivity|auto].
      * exfalso. apply (HN (j, h)); [now left|]. cbn [fst].
        apply (C [i] j (map fst (I1 ++ (i, m) :: M ++ I2)) i); [reflexivity|now left|]. rewrite map_app, in_app_iff. right. now left.
  - exists ((j, g) :: I1), M, I2. splits; auto. intros it [<-|H]; auto.
Qed.

Section Point.
Variables V K : Type.
Variable throws : nat -> bool.
Variable pick : list node -> node.
Variable dv : V.
Variable key : V -> K.
Variable eq : K -> K -> bool.
Variable hash : K -> nat.
Variable uniq : bool.
Variable hd : node.
Variable L : Layer V.
Variable S : Spec V.
Variable rep : St L -> AV S -> Prop.
Variable shell : St L -> Prop.
Hypothesis O : OK throws pick dv hd L S rep shell.
Hypothesis HO : heq_ok eq hash.
Notation OM := (OM L).

(** ** Steps *)
Section Steps.
Variable s : St L.
Notation b := (bget L s).
Notation vl := (val dv b).

Lemma adv_mem n : mem (bget L (adv L n s)) = mem b.
Proof. unfold adv. rewrite (o_bb O). reflexivity. Qed.
Lemma adv_tk n : tk (bget L (adv L n s)) = n.
Proof. unfold adv. rewrite (o_bb O). reflexivity. Qed.
Lemma adv_adv n m : adv L n (adv L m s) = adv L n s.
Proof. unfold adv. rewrite (o_bb O), (o_ss O). reflexivity. Qed.
Lemma adv_cget n : cget L (adv L n s) = cget L s.
Proof. unfold adv. apply (o_cb O). Qed.
Lemma adv_self : adv L (tk b) s = s.
Proof. unfold adv. destruct b eqn:E. cbn. rewrite <- E. apply (o_gs O). Qed.

Lemma wp_oval {B} x (k : V -> OM B) Q E t n : live b x -> wp (k (vl x)) Q E (t, adv L n s) -> wp (bind (oval L x) k) Q E (t, adv L n s).
Proof.
  intros Lx H. apply wp_bind. unfold oval. apply wp_sup. apply wp_lens. unfold wp, value.
  rewrite adv_mem, (live_val dv Lx). replace (bset L (bget L (adv L n s)) (adv L n s)) with (adv L n s).
  - apply H.
  - symmetry. apply (o_gs O).
Qed.
Lemma wp_ucall {A B} (a : A) (k : A -> OM B) Q (E : ost L -> Prop) t n :
  (throws n = true -> E (t, adv L (Datatypes.S n) s)) ->
  (throws n = false -> wp (k a) Q E (t, adv L (Datatypes.S n) s)) ->
  wp (bind (ucall throws L a) k) Q E (t, adv L n s).
Proof.
  intros H1 H2. unfold ucall. apply wp_bind, wp_bind. apply wp_sup. apply wp_lens. unfold wp at 1, tick.
  rewrite adv_mem, adv_tk.
  assert (Eq : bset L (mkB (mem b) (Datatypes.S n)) (adv L n s) = adv L (Datatypes.S n) s).
  { unfold adv. apply (o_ss O). }
  destruct (throws n) eqn:T; rewrite Eq; clear Eq; auto.
Qed.
Lemma wp_get {A B} (f : hst -> A) (k : A -> OM B) Q E t s' : wp (k (f t)) Q E (t, s') -> wp (bind (get L f) k) Q E (t, s').
Proof. intros H. apply wp_bind. unfold get. apply wp_own. exact H. Qed.
Lemma wp_hp {A B} (m : HM A) (k : A -> OM B) Q E t s' :
  wp m (fun a h' => wp (k a) Q E (set_hp h' t, s')) (fun _ => False) (hp t) -> wp (bind (hpM L m) k) Q E (t, s').
Proof.
  intros H. apply wp_bind. unfold hpM. apply wp_own, wp_lens. eapply wp_conseq; [exact H|auto|easy].
Qed.
Lemma wp_hp1 {A} (m : HM A) Q E t s' :
  wp m (fun a h' => Q a (set_hp h' t, s')) (fun _ => False) (hp t) -> wp (hpM L m) Q E (t, s').
Proof.
  intros H. unfold hpM. apply wp_own, wp_lens. eapply wp_conseq; [exact H|auto|easy].
Qed.
Lemma wp_rdhp {A B} (m : HM A) r (k : A -> OM B) Q E t s' : Rd m r (hp t) -> wp (k r) Q E (t, s') -> wp (bind (hpM L m) k) Q E (t, s').
Proof.
  intros R H. apply wp_hp. eapply wp_conseq; [exact R| |easy]. intros a h (-> & ->). now rewrite set_hp_self.
Qed.
Lemma wp_size {B} (k : nat -> OM B) Q E t n : wp (k (cget L s)) Q E (t, adv L n s) -> wp (bind (supM (Layer.size L)) k) Q E (t, adv L n s).
Proof. intros H. apply wp_bind, wp_sup. unfold Layer.size, wp at 1. rewrite adv_cget. exact H. Qed.
Lemma wp_bound {B} (k : nat -> OM B) Q E t n : wp (k (cget L s + 4)) Q E (t, adv L n s) -> wp (bind (bound L) k) Q E (t, adv L n s).
Proof.
  intros H. unfold bound. apply wp_bind. apply wp_bind, wp_sup. unfold Layer.size, wp at 1.
  rewrite adv_cget. apply wp_ret. exact H.
Qed.
End Steps.

(** ** Computations which change nothing but the clock *)
Section State.
Variable t : hst.
Variable s : St L.
Notation b := (bget L s).
Notation vl := (val dv b).

Definition Ro {A} (m : OM A) (P : A -> Prop) : Prop := forall n,
  wp m (fun a st => P a /\ exists n', quiet throws n n' /\ st = (t, adv L n' s))
       (fun st => exists n', blown throws n n' /\ st = (t, adv L n' s)) (t, adv L n s).

Lemma Ro_wp {A B} (m : OM A) P (k : A -> OM B) Q E : Ro m P ->
  (forall a n, P a -> quiet throws (tk b) n -> wp (k a) Q E (t, adv L n s)) ->
  (forall n, blown throws (tk b) n -> E (t, adv L n s)) ->
  wp (bind m k) Q E (t, s).
Proof.
  intros R H1 H2. apply wp_bind. rewrite <- (adv_self s) at 1. eapply wp_conseq; [apply R| |].
  - intros a st (Pa & n & q & ->). auto.
  - intros st (n & q & ->). auto.
Qed.
Lemma Ro_wpn {A B} (m : OM A) P (k : A -> OM B) Q E n : Ro m P ->
  (forall a n', P a -> quiet throws n n' -> wp (k a) Q E (t, adv L n' s)) ->
  (forall n', blown throws n n' -> E (t, adv L n' s)) ->
  wp (bind m k) Q E (t, adv L n s).
Proof.
  intros R H1 H2. apply wp_bind. eapply wp_conseq; [apply R| |].
  - intros a st (Pa & n' & q & ->). auto.
  - intros st (n' & q & ->). auto.
Qed.
Lemma Ro_wp1 {A} (m : OM A) P (Q : A -> ost L -> Prop) (E : ost L -> Prop) : Ro m P ->
  (forall a n, P a -> quiet throws (tk b) n -> Q a (t, adv L n s)) ->
  (forall n, blown throws (tk b) n -> E (t, adv L n s)) ->
  wp m Q E (t, s).
Proof.
  intros R H1 H2. rewrite <- (adv_self s) at 1. eapply wp_conseq; [apply R| |].
  - intros a st (Pa & n & q & ->). auto.
  - intros st (n & q & ->). auto.
Qed.
Lemma Ro_conseq {A} (m : OM A) (P P' : A -> Prop) : Ro m P -> (forall a, P a -> P' a) -> Ro m P'.
Proof. intros R H n. eapply wp_conseq; [apply R| |]; cbn; auto. intros a st (Pa & r). auto. Qed.
Lemma Ro_ret {A} (a : A) (P : A -> Prop) : P a -> Ro (ret a) P.
Proof. intros H n. apply wp_ret. split; auto. exists n. split; auto. apply quiet_refl. Qed.
Lemma Ro_bind {A B} (m : OM A) P (k : A -> OM B) P' : Ro m P -> (forall a, P a -> Ro (k a) P') -> Ro (bind m k) P'.
Proof.
  intros R H n. apply wp_bind. eapply wp_conseq; [apply R| |]; cbn; auto.
  intros a st (Pa & n1 & q1 & ->). eapply wp_conseq; [apply (H a Pa)| |]; cbn.
  - intros a' st (Pa' & n2 & q2 & ->). split; auto. exists n2. split; auto. eapply quiet_trans; eauto.
  - intros st (n2 & q2 & ->). exists n2. split; auto. eapply blown_trans; eauto.
Qed.
Lemma Ro_val {B} x (k : V -> OM B) P' : live b x -> Ro (k (vl x)) P' -> Ro (bind (oval L x) k) P'.
Proof. intros Lx H n. apply wp_oval; auto. Qed.
Lemma Ro_ucall {A B} (a : A) (k : A -> OM B) P' : Ro (k a) P' -> Ro (bind (ucall throws L a) k) P'.
Proof.
  intros H n. apply wp_ucall; intros T.
  - exists (Datatypes.S n). split; auto. now apply blown_S.
  - eapply wp_conseq; [apply H| |]; cbn.
    + intros a' st (Pa & n2 & q2 & ->). split; auto. exists n2. split; auto.
      eapply quiet_trans; [apply quiet_S; eauto|auto].
    + intros st (n2 & q2 & ->). exists n2. split; auto. eapply blown_trans; [apply quiet_S; eauto|auto].
Qed.
Lemma Ro_eta {A} (m : OM A) P : Ro (bind m (@ret _ _)) P -> Ro m P.
Proof. intros R n. specialize (R n). unfold wp, bind in R |- *. destruct (m (t, adv L n s)); auto. Qed.
Lemma Ro_ucall1 {A} (a : A) (P : A -> Prop) : P a -> Ro (ucall throws L a) P.
Proof. intros H. apply Ro_eta, Ro_ucall. now apply Ro_ret. Qed.
Lemma Ro_hp {A B} (m : HM A) r (k : A -> OM B) P' : Rd m r (hp t) -> Ro (k r) P' -> Ro (bind (hpM L m) k) P'.
Proof. intros H1 H2 n. eapply wp_rdhp; [exact H1|]. apply H2. Qed.
Lemma Ro_hp1 {A} (m : HM A) r (P : A -> Prop) : Rd m r (hp t) -> P r -> Ro (hpM L m) P.
Proof. intros H1 H2. apply Ro_eta. eapply Ro_hp; [exact H1|]. now apply Ro_ret. Qed.
Lemma Ro_get {A B} (f : hst -> A) (k : A -> OM B) P' : Ro (k (f t)) P' -> Ro (bind (get L f) k) P'.
Proof. intros H n. apply wp_get. apply H. Qed.
Lemma Ro_get1 {A} (f : hst -> A) (P : A -> Prop) : P (f t) -> Ro (get L f) P.
Proof. intros H. apply Ro_eta, Ro_get. now apply Ro_ret. Qed.
Lemma Ro_size {B} (k : nat -> OM B) P' : Ro (k (cget L s)) P' -> Ro (bind (supM (Layer.size L)) k) P'.
Proof. intros H n. apply wp_size, H. Qed.
Lemma Ro_bound {B} (k : nat -> OM B) P' : Ro (k (cget L s + 4)) P' -> Ro (bind (bound L) k) P'.
Proof. intros H n. apply wp_bound, H. Qed.
Lemma Ro_ift {A} (c : bool) (m m' : OM A) P : c = true -> Ro m P -> Ro (if c then m else m') P.
Proof. now intros ->. Qed.
Lemma Ro_iff {A} (c : bool) (m m' : OM A) P : c = false -> Ro m' P -> Ro (if c then m else m') P.
Proof. now intros ->. Qed.
Lemma Ro_test {B} p x (k : bool -> OM B) P' : live b x -> Ro (k (p (key (vl x)))) P' -> Ro (bind (test throws key L p x) k) P'.
Proof.
  intros Lx H. apply Ro_bind with (P := fun r => r = p (key (vl x))).
  - unfold test. apply Ro_val; auto. now apply Ro_ucall1.
  - intros a ->. exact H.
Qed.
Lemma Ro_test1 p x (P' : bool -> Prop) : live b x -> P' (p (key (vl x))) -> Ro (test throws key L p x) P'.
Proof. intros Lx H. apply Ro_eta, Ro_test; auto. now apply Ro_ret. Qed.
Lemma Ro_same {B} x y (k : bool -> OM B) P' : live b x -> live b y -> Ro (k (eq (key (vl x)) (key (vl y)))) P' ->
  Ro (bind (same throws key eq L x y) k) P'.
Proof.
  intros Lx Ly H. apply Ro_bind with (P := fun r => r = eq (key (vl x)) (key (vl y))).
  - unfold same. apply Ro_val; auto. now apply Ro_test1.
  - intros a ->. exact H.
Qed.

(** ** The chain of buckets *)
Variable I : list item.
Variable F : list cell.
Notation n := (bc t).
Notation a := (arr t).
Hypothesis Wf : wfi n I.
Hypothesis Hs : hs (hp t) (layout a n hd I ++ F).
Hypothesis UQ : uniq = true -> Forall (fun it => length (snd it) = 1) I.
Hypothesis LV : forall x, In x (elems I) -> live b x.
Hypothesis SZ : length (elems I) <= Datatypes.S (cget L s).

Lemma item_one I1 i g I2 : I = I1 ++ (i, g) :: I2 -> uniq = true -> exists x, g = [x].
Proof.
  intros E U. specialize (UQ U). rewrite E in UQ. apply Forall_app in UQ as (_ & H). inversion H as [|? ? H1 _]; subst.
  cbn in H1. destruct g as [|x [|]]; cbn in H1; try lia. eauto.
Qed.
Lemma elems_ge J : wfi n J -> length J <= length (elems J).
Proof.
  intros W. induction J as [|(i, g) J IH]; [cbn; lia|]. apply wfi_cons in W as ((_ & S1 & _) & W). specialize (IH W).
  rewrite elems_cons, app_length. cbn [length]. destruct S1; lia.
Qed.
Lemma items_le : length I <= Datatypes.S (cget L s).
Proof. assert (H := elems_ge Wf). lia. Qed.

Lemma next_to_inspect_lay I1 i g I2 : I = I1 ++ (i, g) :: I2 -> Rd (next_to_inspect uniq (first_of g)) (locally n hd i I2) (hp t).
Proof.
  intros E. assert (U := item_one I1 i g I2 E). unfold next_to_inspect.
  assert (W' := Wf). assert (H' := Hs). rewrite E in W', H'. destruct (bool_dec uniq true) as [U'|U'].
  - destruct (U U') as (x & ->). rewrite U'. eapply u_after_local_lay; eauto.
  - apply not_true_is_false in U'. rewrite U'. eapply n_next_lay; eauto.
Qed.
Lemma after_local_last I1 i g I2 : I = I1 ++ (i, g) :: I2 -> Rd (after_local uniq (last_of g)) (locally n hd i I2) (hp t).
Proof.
  intros E. assert (U := item_one I1 i g I2 E). unfold after_local.
  assert (W' := Wf). assert (H' := Hs). rewrite E in W', H'. destruct (bool_dec uniq true) as [U'|U'].
  - destruct (U U') as (x & ->). rewrite U'. eapply u_after_local_lay; eauto.
  - apply not_true_is_false in U'. rewrite U'. eapply n_after_local_lay_last; eauto.
Qed.
Lemma after_last I1 i g I2 : I = I1 ++ (i, g) :: I2 -> Rd (after uniq (last_of g)) (nnode hd I2) (hp t).
Proof.
  intros E. assert (U := item_one I1 i g I2 E). unfold after.
  assert (W' := Wf). assert (H' := Hs). rewrite E in W', H'. destruct (bool_dec uniq true) as [U'|U'].
  - destruct (U U') as (x & ->). rewrite U'. eapply u_after_lay; eauto.
  - apply not_true_is_false in U'. rewrite U'. eapply n_after_lay_last; eauto.
Qed.
Lemma after_in I1 i g1 x y g2 I2 : I = I1 ++ (i, g1 ++ x :: y :: g2) :: I2 ->
  Rd (after uniq x) y (hp t) /\ Rd (after_local uniq x) y (hp t).
Proof.
  intros E. assert (U := item_one I1 i _ I2 E). unfold after, after_local.
  assert (W' := Wf). assert (H' := Hs). rewrite E in W', H'. destruct (bool_dec uniq true) as [U'|U'].
  - destruct (U U') as (u & Eu). exfalso. apply (f_equal (@length node)) in Eu. rewrite app_length in Eu. cbn in Eu. lia.
  - apply not_true_is_false in U'. rewrite U'. split; eapply n_after_lay_in; eauto.
Qed.
Lemma first_ne I1 i g I2 : I = I1 ++ (i, g) :: I2 -> (first_of g =? null) = false.
Proof.
  intros E. apply Nat.eqb_neq. eapply first_null. rewrite <- E. exact Wf.
Qed.
Lemma item_live I1 i g I2 y : I = I1 ++ (i, g) :: I2 -> In y g -> live b y.
Proof. intros E Y. apply LV. rewrite E, elems_app, elems_cons, !in_app_iff. auto. Qed.
Lemma item_shaped I1 i g I2 : I = I1 ++ (i, g) :: I2 -> i < n /\ shaped g.
Proof. intros E. assert (W := Wf). rewrite E in W. apply wfi_app in W as (_ & W). apply wfi_cons in W. tauto. Qed.
Lemma not_again I1 i j g I2 : I = I1 ++ (j, g) :: I2 -> In i (map fst I1) -> i <> j -> ~ In i (map fst ((j, g) :: I2)).
Proof.
  intros E X N Y. assert (C := layout_contig _ _ _ _ _ Hs). rewrite E in C. rewrite map_app in C. cbn [map fst] in *.
  destruct Y as [->|Y]; [easy|]. apply N. rewrite <- app_assoc in C. cbn [app] in C.
  symmetry. eapply (C (map fst I1) j (map fst I2 ++ [n]) i); auto. apply in_or_app. auto.
Qed.

(** the first item of bucket [i] whose first element meets [p] *)
Definition scan (p : node -> bool) (i : nat) (J : list item) : node :=
  match List.find (fun it => (fst it =? i) && p (first_of (snd it))) J with Some it => first_of (snd it) | None => null end.
Notation pk p := (fun y => p (key (vl y))).

Lemma find_none p i J : ~ In i (map fst J) -> scan p i J = null.
Proof.
  intros N. unfold scan. replace (List.find _ J) with (@None item); auto. symmetry.
  induction J as [|(j, g) J IH]; [reflexivity|]. cbn [List.find fst snd]. cbn [map fst In] in N.
  rewrite (proj2 (Nat.eqb_neq j i)) by tauto. cbn [andb]. apply IH. tauto.
Qed.
Lemma find_loop_lay p i J : forall I1 fuel, I = I1 ++ J -> i < n ->
  (In i (map fst I1) \/ exists g J', J = (i, g) :: J') -> length J < fuel ->
  Ro (find_loop throws key uniq L fuel p (locally n hd i J)) (fun r => r = scan (pk p) i J).
Proof.
  induction J as [|(j, g) J IH]; intros I1 fuel E Li H Lf; destruct fuel as [|fuel]; try (cbn in Lf; lia); cbn [find_loop].
  - unfold locally. cbn [nidx]. rewrite (proj2 (Nat.eqb_neq i n)) by lia. cbn. now apply Ro_ret.
  - unfold locally. cbn [nidx nnode]. destruct (Nat.eqb_spec i j) as [<-|N].
    + rewrite (first_ne I1 i g J E). apply Ro_test; [apply (item_live I1 i g J); auto; now apply first_in, (item_shaped I1 i g J)|].
      cbn beta. unfold scan. cbn [List.find fst snd]. rewrite Nat.eqb_refl. cbn [andb].
      destruct (p (key (vl (first_of g)))) eqn:P; cbn [snd].
      * now apply Ro_ret.
      * eapply Ro_hp; [eapply next_to_inspect_lay; exact E|]. apply (IH (I1 ++ [(i, g)])); auto.
        -- rewrite <- app_assoc. exact E.
        -- left. rewrite map_app, in_app_iff. cbn. auto.
        -- cbn in Lf. lia.
    + destruct H as [H|(g' & J' & Eq)]; [|congruence]. cbn [Nat.eqb]. apply Ro_ret. symmetry.
      apply find_none. eapply not_again; eauto.
Qed.
Lemma find_from p i : i < n -> Ro (find_loop throws key uniq L (cget L s + 4) p (bfirst i I)) (fun r => r = scan (pk p) i I).
Proof.
  intros Li. assert (Le := items_le).
  destruct (bfirst_split i I) as [(I1 & g & I2 & E & N & ->)|(N & ->)].
  - assert (Es : scan (pk p) i I = scan (pk p) i ((i, g) :: I2)).
    { rewrite E. clear - N. unfold scan. induction I1 as [|(j, g1) I1 IH]; [reflexivity|]. cbn [app List.find fst snd].
      cbn [map fst In] in N. rewrite (proj2 (Nat.eqb_neq j i)) by tauto. cbn [andb]. apply IH. tauto. }
    rewrite Es. replace (first_of g) with (locally n hd i ((i, g) :: I2)).
    + apply (@find_loop_lay p i ((i, g) :: I2) I1); auto.
      * right. eauto.
      * rewrite E, app_length in Le. lia.
    + unfold locally. cbn [nidx nnode]. now rewrite Nat.eqb_refl.
  - rewrite (find_none _ _ _ N). rewrite Nat.add_comm. cbn [Nat.add find_loop]. now apply Ro_ret.
Qed.

(** ** Classes *)
Variable G : list item.
Hypothesis CL : classes key eq hash uniq vl n I G.
Notation kf y := (key (vl y)).

(** [p] holds of the members of at most one class, with hash [hk] *)
Definition picks (p : K -> bool) (hk : nat) : Prop :=
  (forall k k', p k = true -> p k' = eq k k') /\ (forall k, p k = true -> hash k = hk).
Lemma picks_eq k : picks (eq k) (hash k).
Proof.
  split; [intros k1 k2 H; now apply (q_left HO)|]. intros k1 H. symmetry. now apply (q_hash HO).
Qed.
Lemma first_resplit i g : g <> [] -> exists s r, resplit i g = (i, s) :: r /\ first_of s = first_of g /\ s <> [].
Proof.
  intros N. unfold resplit. destruct (split_cases g) as [(-> & _)|[(x & -> & ->)|[(f & l & -> & ->)|(_ & ->)]]].
  - easy.
  - exists [x], []. repeat split; easy.
  - exists [f], [(i, [l])]. repeat split; easy.
  - exists g, []. repeat split; easy.
Qed.
Lemma scan_skip p i J J' : (forall it, In it J -> p (first_of (snd it)) = false) -> scan p i (J ++ J') = scan p i J'.
Proof.
  intros H. unfold scan. induction J as [|(j, g) J IH]; [reflexivity|]. cbn [app List.find fst snd].
  assert (E := H (j, g) (or_introl eq_refl)). cbn [snd] in E. rewrite E, andb_false_r. apply IH. intros it Hi. apply H. now right.
Qed.
Lemma flat_first it H : In it (flat H) -> In (first_of (snd it)) (elems H).
Proof.
  intros X. rewrite <- elems_flat. apply in_elems. exists it. split; auto. apply first_in.
  unfold flat in X. apply in_flat_map in X as (c & _ & X). eapply resplit_shaped; eauto.
Qed.
Lemma scan_class p hk : picks p hk ->
  ((forall y, In y (elems G) -> p (kf y) = false) /\ scan (pk p) (position hk n) I = null) \/
  (exists G1 g G2, G = G1 ++ (position hk n, g) :: G2 /\ (forall y, In y g -> p (kf y) = true) /\
     (forall y, In y (elems (G1 ++ G2)) -> p (kf y) = false) /\ scan (pk p) (position hk n) I = first_of g).
Proof.
  intros (P1 & P2). destruct CL as (E & C & A).
  destruct (List.existsb (fun c => p (kf (first_of (snd c)))) G) eqn:X.
  - right. apply existsb_exists in X as (c & X & Pc). apply in_split in X as (G1 & G2 & ->). exists G1, (snd c), G2.
    rewrite Forall_forall in C. assert (Hc : class key eq hash uniq vl n c) by (apply C; rewrite in_app_iff; cbn; auto).
    destruct Hc as (Nc & Bc & Qc & Uc).
    assert (Fc : In (first_of (snd c)) (snd c)) by (destruct (snd c); [easy|now left]).
    assert (Pall : forall y, In y (snd c) -> p (kf y) = true) by (intros y Y; rewrite (P1 _ _ Pc); auto).
    assert (Ei : fst c = position hk n) by (rewrite <- (Bc _ Fc); f_equal; auto).
    apply fop_mid in A; [|intros; eapply apart_sym; eauto]. destruct A as (A & _).
    assert (Pno : forall y, In y (elems (G1 ++ G2)) -> p (kf y) = false).
    { intros y Y. apply in_elems in Y as (d & D & Y). rewrite (P1 _ (kf y) Pc). apply (A d D); auto. }
    repeat split; auto.
    + f_equal. f_equal. destruct c. cbn in *. congruence.
    + rewrite E, flat_app, flat_cons, scan_skip.
      * destruct (first_resplit (fst c) Nc) as (s0 & r & -> & Ef & _). unfold scan. cbn [app List.find fst snd].
        rewrite Ei, Nat.eqb_refl, Ef, Pc. exact Ef.
      * intros it Hi. apply Pno. rewrite elems_app, in_app_iff. left. now apply flat_first.
  - left. assert (Pno : forall y, In y (elems G) -> p (kf y) = false).
    { intros y Y. apply in_elems in Y as (d & D & Y). rewrite Forall_forall in C. destruct (C d D) as (Nd & Bd & Qd & Ud).
      assert (Fc : In (first_of (snd d)) (snd d)) by (destruct (snd d); [easy|now left]).
      destruct (p (kf y)) eqn:Py; auto. rewrite <- X. symmetry. apply existsb_exists. exists d. split; auto.
      rewrite (P1 _ (kf (first_of (snd d))) Py). auto. }
    split; auto. rewrite E. rewrite <- (app_nil_r (flat G)), scan_skip; [reflexivity|].
    intros it Hi. apply Pno. now apply flat_first.
Qed.

Lemma class_item G1 i g G2 : G = G1 ++ (i, g) :: G2 -> I = flat G1 ++ resplit i g ++ flat G2 /\ g <> [] /\ class key eq hash uniq vl n (i, g).
Proof.
  intros E. destruct CL as (EI & C & _). rewrite E in EI. rewrite flat_app, flat_cons in EI. split; auto.
  rewrite Forall_forall in C. assert (H : class key eq hash uniq vl n (i, g)) by (apply C; rewrite E, in_app_iff; cbn; auto).
  split; auto. apply H.
Qed.
Lemma next_class G1 i g G2 y : G = G1 ++ (i, g) :: G2 -> In y g -> nidx n (flat G2) < n ->
  live b (nnode hd (flat G2)) /\ eq (kf y) (kf (nnode hd (flat G2))) = false.
Proof.
  intros E Y Ln. destruct CL as (EI & C & A). rewrite E in A. apply fop_mid in A; [|intros; eapply apart_sym; eauto].
  destruct (flat G2) as [|(j, g2) J] eqn:Ef; cbn [nidx nnode] in *; [lia|].
  assert (X : In (first_of g2) (elems G2)).
  { change g2 with (snd (j, g2)). apply flat_first. rewrite Ef. now left. }
  split.
  - apply LV. rewrite EI, E, elems_flat, elems_app, elems_cons, !in_app_iff. auto.
  - apply in_elems in X as (d & D & X). apply (proj1 A d); auto. apply in_or_app. auto.
Qed.
Lemma nidx_lt J1 J2 : I = J1 ++ J2 -> nidx n J2 <> n -> nidx n J2 < n.
Proof.
  intros E N. destruct J2 as [|(j, g) J2]; cbn [nidx] in *; [lia|]. now apply (item_shaped J1 j g J2).
Qed.
Lemma uq_class i g : class key eq hash uniq vl n (i, g) -> uniq = true -> exists x, g = [x].
Proof. intros (_ & _ & _ & U) T. specialize (U T). cbn in U. destruct g as [|x [|]]; cbn in U; try lia. eauto. Qed.

Lemma range_ends G1 i g G2 : G = G1 ++ (i, g) :: G2 ->
  Ro (last_of_range throws key eq uniq L (first_of g)) (fun r => r = last_of g) /\
  Ro (end_of_range throws key eq uniq L (first_of g)) (fun r => r = nnode hd (flat G2)).
Proof.
  intros E. destruct (class_item G1 i g G2 E) as (EI & Ng & Cg).
  unfold last_of_range, end_of_range. destruct (bool_dec uniq true) as [U|U].
  - destruct (uq_class Cg U) as (x & ->). cbn [first_of last_of List.hd last].
    change (resplit i [x]) with [(i, [x])] in EI. cbn [app] in EI. split; (apply Ro_ift; [exact U|]); [now apply Ro_ret|].
    apply Ro_bind with (P := fun l => l = x).
    + apply Ro_ift; [exact U|]. now apply Ro_ret.
    + intros l ->. eapply Ro_hp1; [exact (after_last _ _ _ _ EI)|reflexivity].
  - apply not_true_is_false in U.
    match goal with |- Ro (if uniq then _ else ?m) ?P /\ Ro (if uniq then _ else ?m') ?P' => enough (Ro m P /\ Ro m' P') as (R1 & R2) end.
    { split; apply Ro_iff; auto. }
    assert (W' := Wf). assert (H' := Hs). rewrite EI in W', H'.
    destruct (split_cases g) as [(-> & _)|[(x & -> & Es)|[(f & l & -> & Es)|(Lg & Es)]]]; [easy| | |];
      unfold resplit in EI, W', H'; rewrite Es in EI, W', H'; cbn [map app first_of last_of List.hd last] in *.
    + (* one element *)
      assert (Lx : live b x) by (apply (item_live (flat G1) i [x] (flat G2)); [auto|now left]).
      destruct (Nat.eq_dec (nidx n (flat G2)) i) as [Ei|Ei].
      * destruct (one_next _ _ _ _ _ _ W' H' Ei) as (R1 & R2).
        assert (Ln : nidx n (flat G2) < n) by (rewrite Ei; now apply (item_shaped (flat G1) i [x] (flat G2))).
        destruct (next_class G1 i [x] G2 x E (or_introl eq_refl) Ln) as (Ly & Ny).
        split.
        -- eapply Ro_hp; [exact R1|]. eapply Ro_hp; [exact R2|]. rewrite Nat.eqb_refl.
           eapply Ro_hp; [apply Rd_eq; reflexivity|]. apply Ro_same; auto. rewrite Ny. now apply Ro_ret.
        -- eapply Ro_hp; [exact R1|]. eapply Ro_hp; [exact R2|]. rewrite Nat.eqb_refl.
           eapply Ro_hp; [apply Rd_eq; reflexivity|]. apply Ro_same; auto. rewrite Ny.
           eapply Ro_hp1; [exact (beyond_lay _ _ _ _ _ _ _ W' H')|reflexivity].
      * destruct (one_end _ _ _ _ _ _ W' H' Ei) as (bb & R1 & R2 & N1 & R3).
        split.
        -- eapply Ro_hp; [exact R1|]. eapply Ro_hp; [exact R2|]. rewrite (proj2 (Nat.eqb_neq _ _) N1).
           eapply Ro_hp; [exact R3|]. rewrite Nat.eqb_refl. now apply Ro_ret.
        -- eapply Ro_hp; [exact R1|]. eapply Ro_hp; [exact R2|]. rewrite (proj2 (Nat.eqb_neq _ _) N1).
           eapply Ro_hp; [exact R3|]. rewrite Nat.eqb_refl. now apply Ro_ret.
    + (* two *)
      assert (Lx : live b f) by (apply (item_live (flat G1) i [f] ((i, [l]) :: flat G2)); [auto|now left]).
      assert (Ly : live b l).
      { apply (item_live (flat G1 ++ [(i, [f])]) i [l] (flat G2)); [|now left]. rewrite <- app_assoc. exact EI. }
      destruct (@one_next a n hd (hp t) F (flat G1) ((i, [l]) :: flat G2) i f W' H' eq_refl) as (R1 & R2). cbn [nnode first_of List.hd] in R1, R2.
      assert (Q : eq (kf f) (kf l) = true) by (apply Cg; cbn; auto).
      split.
      * eapply Ro_hp; [exact R1|]. eapply Ro_hp; [exact R2|]. rewrite Nat.eqb_refl.
        eapply Ro_hp; [apply Rd_eq; reflexivity|]. apply Ro_same; auto. rewrite Q. now apply Ro_ret.
      * eapply Ro_hp; [exact R1|]. eapply Ro_hp; [exact R2|]. rewrite Nat.eqb_refl.
        eapply Ro_hp; [apply Rd_eq; reflexivity|]. apply Ro_same; auto. rewrite Q.
        eapply Ro_hp1; [|reflexivity].
        change (Rd (beyond (last_of [l])) (nnode hd (flat G2)) (hp t)).
        change ((i, [f]) :: (i, [l]) :: flat G2) with ([(i, [f])] ++ (i, [l]) :: flat G2) in W', H'. rewrite app_assoc in W', H'.
        eapply beyond_lay; eauto.
    + (* more *)
      destruct (grp_next _ _ _ _ _ _ _ W' H' Lg) as (s2 & p2 & R1 & R2 & N1 & R3 & N2).
      split.
      * eapply Ro_hp; [exact R1|]. eapply Ro_hp; [exact R2|]. rewrite (proj2 (Nat.eqb_neq _ _) N1).
        eapply Ro_hp; [exact R3|]. rewrite (proj2 (Nat.eqb_neq _ _) N2). now apply Ro_ret.
      * eapply Ro_hp; [exact R1|]. eapply Ro_hp; [exact R2|]. rewrite (proj2 (Nat.eqb_neq _ _) N1).
        eapply Ro_hp; [exact R3|]. rewrite (proj2 (Nat.eqb_neq _ _) N2).
        eapply Ro_hp1; [exact (beyond_lay _ _ _ _ _ _ _ W' H')|reflexivity].
Qed.
Lemma position_lt hk : 0 < n -> position hk n < n.
Proof. intros H. unfold position. apply Nat.mod_upper_bound. lia. Qed.

(** link_point *)
Inductive lp_spec (k : K) (i : nat) : bool * linfo -> Prop :=
| lp_new : (forall y, In y (elems G) -> eq k (kf y) = false) -> lp_spec k i (true, (PB a i, null))
| lp_class G1 g G2 : uniq = false -> G = G1 ++ (i, g) :: G2 -> (forall y, In y g -> eq k (kf y) = true) ->
    lp_spec k i (true, (PN (first_of g), last_of g))
| lp_dup x : uniq = true -> In x (elems G) -> eq k (kf x) = true -> lp_spec k i (false, (PN x, null)).
Lemma link_point_ok k i : 0 < n -> i = position (hash k) n -> Ro (link_point throws key eq uniq L k i) (lp_spec k i).
Proof.
  intros N ->. unfold link_point, at_. apply Ro_get.
  assert (Li := position_lt (hash k) N).
  eapply Ro_hp; [eapply bucket_lay; [exact Hs|exact Li]|]. apply Ro_bound.
  eapply Ro_bind; [exact (find_from (eq k) Li)|]. cbn beta. intros x ->.
  destruct (scan_class (picks_eq k)) as [(H & ->)|(G1 & g & G2 & E & H & H' & ->)].
  - cbn [Nat.eqb]. apply Ro_ret. now constructor.
  - destruct (class_item G1 _ g G2 E) as (EI & Ng & Cg).
    assert (Ff : (first_of g =? null) = false).
    { destruct (@first_resplit (position (hash k) n) g Ng) as (s0 & r & Er & Ef & _).
      rewrite Er in EI. rewrite <- Ef. exact (first_ne _ _ _ _ EI). }
    rewrite Ff. destruct (bool_dec uniq true) as [U|U].
    + apply Ro_ift; auto. apply Ro_ret. assert (In (first_of g) g) by (destruct g; [easy|now left]). apply lp_dup; auto.
      rewrite E, elems_app, elems_cons, !in_app_iff. auto.
    + apply not_true_is_false in U. apply Ro_iff; auto. eapply Ro_bind; [exact (proj1 (range_ends G1 _ g G2 E))|].
      intros l ->. apply Ro_ret. eapply lp_class; eauto.
Qed.
(** ** Lookup *)
Lemma nodup_lay : NoDup (hd :: elems I).
Proof. assert (N := layout_nodup _ _ _ Wf Hs). now apply NoDup_app_iff in N as (_ & N & _). Qed.
Lemma after_any l1 x l2 : elems I = l1 ++ x :: l2 -> Rd (after uniq x) (List.hd hd l2) (hp t).
Proof.
  intros E. destruct (elems_cut x I l1 l2 E) as (I1 & i & g1 & g2 & I2 & EI & -> & ->). destruct g2 as [|y g2].
  - assert (R := after_last _ _ _ _ EI). unfold last_of in R. rewrite last_last in R. cbn [app].
    rewrite <- (@nnode_hd hd n I2); auto. assert (W := Wf). rewrite EI in W. apply wfi_app in W as (_ & W). now apply wfi_cons in W as (_ & W).
  - apply (after_in I1 i g1 x y g2 I2 EI).
Qed.
(** the elements which meet [p] *)
Definition hits (p : K -> bool) : list node := filter (fun y => p (kf y)) (elems I).
Inductive found (p : K -> bool) : node -> Prop :=
| f_none : hits p = [] -> found p null
| f_some G1 i g G2 : G = G1 ++ (i, g) :: G2 -> hits p = g -> g <> [] -> first_of g <> null ->
    elems I = elems G1 ++ g ++ elems G2 -> nnode hd (flat G2) = List.hd hd (elems G2) -> found p (first_of g).
Lemma filter_no {A} (f : A -> bool) l : (forall y, In y l -> f y = false) -> filter f l = [].
Proof. intros H. induction l as [|y l IH]; cbn; auto. rewrite (H y) by now left. apply IH. intros z Z. apply H. now right. Qed.
Lemma filter_yes {A} (f : A -> bool) l : (forall y, In y l -> f y = true) -> filter f l = l.
Proof. intros H. induction l as [|y l IH]; cbn; auto. rewrite (H y) by now left. f_equal. apply IH. intros z Z. apply H. now right. Qed.
Lemma elems_IG : elems I = elems G.
Proof. destruct CL as (-> & _). apply elems_flat. Qed.
Lemma find_first_ok p hk : 0 < n -> picks p hk -> Ro (find_first throws key uniq L hk p) (found p).
Proof.
  intros N P. unfold find_first. apply Ro_ucall, Ro_get, Ro_get. assert (Li := position_lt hk N).
  eapply Ro_hp; [eapply bucket_lay; [exact Hs|exact Li]|]. apply Ro_bound.
  eapply Ro_conseq; [exact (find_from p Li)|]. cbn beta. intros x ->.
  destruct (scan_class P) as [(H & ->)|(G1 & g & G2 & E & H & H' & ->)].
  - apply f_none. apply filter_no. intros y Y. rewrite elems_IG in Y. auto.
  - destruct (class_item G1 _ g G2 E) as (EI & Ng & Cg).
    assert (Ff : (first_of g =? null) = false).
    { destruct (@first_resplit (position hk n) g Ng) as (s0 & r & Er & Ef & _).
      rewrite Er in EI. rewrite <- Ef. exact (first_ne _ _ _ _ EI). }
    apply Nat.eqb_neq in Ff.
    assert (Ee : elems I = elems G1 ++ g ++ elems G2) by now rewrite elems_IG, E, elems_app, elems_cons.
    eapply f_some; eauto.
    + unfold hits. rewrite Ee, !filter_app, (filter_no _ (elems G1)), (filter_yes _ g), (filter_no _ (elems G2)), app_nil_r; auto.
      * intros y Y. apply H'. rewrite elems_app, in_app_iff. auto.
      * intros y Y. apply H'. rewrite elems_app, in_app_iff. auto.
    + assert (W := Wf). rewrite EI in W. apply wfi_app in W as (_ & W). apply wfi_app in W as (_ & W). rewrite (nnode_hd hd W).
      now rewrite elems_flat.
Qed.
Lemma find_ok p hk : 0 < n -> picks p hk -> Ro (find throws key uniq hd L hk p) (fun r => r = List.hd hd (hits p)).
Proof.
  intros N P. unfold find. eapply Ro_bind; [exact (find_first_ok N P)|]. intros x [H|G1 i g G2 E H Ng Nn Ee En]; apply Ro_ret; rewrite H.
  - reflexivity.
  - rewrite (proj2 (Nat.eqb_neq _ _) Nn). unfold first_of. destruct g; easy.
Qed.
Lemma contains_ok p hk : 0 < n -> picks p hk -> Ro (contains throws key uniq hd L hk p) (fun r => r = true <-> exists y, In y (elems I) /\ p (kf y) = true).
Proof.
  intros N P. unfold contains. eapply Ro_bind; [exact (find_ok N P)|]. cbn beta. intros x ->. apply Ro_ret.
  assert (Hi : forall y, In y (hits p) <-> In y (elems I) /\ p (kf y) = true) by (intros y; apply filter_In).
  destruct (hits p) as [|y l]; cbn [List.hd].
  - rewrite Nat.eqb_refl. cbn. split; [easy|]. intros (y & Y). now apply Hi in Y.
  - destruct (proj1 (Hi y) (or_introl eq_refl)) as (Y & Py). assert (Nd := nodup_lay). inversion Nd as [|? ? Nh _]; subst.
    rewrite (proj2 (Nat.eqb_neq y hd)) by congruence. cbn. split; eauto.
Qed.
Lemma count_loop_ok : forall g l1 x l2 fuel res, elems I = l1 ++ (x :: g) ++ l2 -> length g < fuel ->
  Ro (count_loop uniq L fuel x (List.hd hd l2) res) (fun r => r = res + Datatypes.S (length g)).
Proof.
  induction g as [|y g IH]; intros l1 x l2 fuel res E Lf; destruct fuel as [|fuel]; try (cbn in Lf; lia); cbn [count_loop].
  - eapply Ro_hp; [exact (after_any l1 x l2 E)|]. rewrite Nat.eqb_refl. apply Ro_ret. cbn. lia.
  - eapply Ro_hp; [exact (after_any l1 x ((y :: g) ++ l2) E)|]. cbn [app List.hd].
    assert (Ne : y <> List.hd hd l2).
    { assert (Nd := nodup_lay). rewrite E in Nd. intros ->. destruct l2 as [|z l2]; cbn [List.hd] in Nd.
      - inversion Nd as [|? ? Nh _]; subst. apply Nh. rewrite in_app_iff. right. right. now left.
      - inversion Nd as [|? ? _ Nd']; subst. apply NoDup_app_iff in Nd' as (_ & Nd' & _). cbn [app] in Nd'.
        inversion Nd' as [|? ? _ Nd2]; subst. inversion Nd2 as [|? ? Nh _]; subst. apply Nh. rewrite in_app_iff. right. now left. }
    rewrite (proj2 (Nat.eqb_neq _ _) Ne). eapply Ro_conseq; [apply (IH (l1 ++ [x]) y l2 fuel (Datatypes.S res))|].
    + rewrite <- app_assoc. exact E.
    + cbn in Lf. lia.
    + cbn beta. intros r ->. cbn. lia.
Qed.
Lemma count_ok p hk : 0 < n -> picks p hk -> Ro (count throws key eq uniq L hk p) (fun r => r = length (hits p)).
Proof.
  intros N P. unfold count. eapply Ro_bind; [exact (find_first_ok N P)|]. intros x [H|G1 i g G2 E H Ng Nn Ee En].
  - cbn [Nat.eqb]. apply Ro_ret. now rewrite H.
  - rewrite (proj2 (Nat.eqb_neq _ _) Nn). eapply Ro_bind; [exact (proj2 (range_ends G1 i g G2 E))|]. cbn beta. intros y ->.
    apply Ro_bound. rewrite En, H. destruct g as [|z g]; [easy|]. unfold first_of. cbn [List.hd].
    eapply Ro_conseq; [apply (@count_loop_ok g (elems G1) z (elems G2))|]; auto.
    assert (Sz := SZ). rewrite Ee, !app_length in Sz. cbn in Sz. lia.
Qed.
Lemma equal_range_ok p hk : 0 < n -> picks p hk -> Ro (equal_range throws key eq uniq hd L hk p) (fun r =>
  exists l1 l2, elems I = l1 ++ hits p ++ l2 /\ r = match hits p with [] => (hd, hd) | y :: _ => (y, List.hd hd l2) end).
Proof.
  intros N P. unfold equal_range. eapply Ro_bind; [exact (find_first_ok N P)|]. intros x [H|G1 i g G2 E H Ng Nn Ee En].
  - cbn [Nat.eqb]. apply Ro_ret. rewrite H. exists (elems I), []. now rewrite app_nil_r.
  - rewrite (proj2 (Nat.eqb_neq _ _) Nn). eapply Ro_bind; [exact (proj2 (range_ends G1 i g G2 E))|]. cbn beta. intros y ->.
    apply Ro_ret. exists (elems G1), (elems G2). rewrite H. split; auto. rewrite En. destruct g; [easy|reflexivity].
Qed.

(** ** Buckets *)
(** the elements of bucket [i] *)
Definition within (i : nat) : list node := filter (fun y => position (hash (kf y)) n =? i) (elems I).
Lemma item_bucket i g y : In (i, g) I -> In y g -> position (hash (kf y)) n = i.
Proof.
  intros H Y. destruct CL as (E & C & _). rewrite E in H. unfold flat in H. apply in_flat_map in H as (c & Hc & H).
  rewrite Forall_forall in C. destruct (C c Hc) as (_ & B & _). rewrite (B y).
  - now rewrite <- (resplit_fst _ _ _ H).
  - exact (resplit_in _ _ _ H _ Y).
Qed.
Lemma within_ok i : exists l1 l2, elems I = l1 ++ within i ++ l2.
Proof.
  assert (C := layout_contig _ _ _ _ _ Hs). apply contig_app in C. destruct (contig_cut i _ C) as (I1 & M & I2 & E & HM & HN).
  exists (elems I1), (elems I2). unfold within. rewrite E, !elems_app, !filter_app. f_equal.
  assert (Eq : forall J, incl J I -> (forall it, In it J -> fst it <> i) -> filter (fun y => position (hash (kf y)) n =? i) (elems J) = []).
  { intros J Ji H. apply filter_no. intros y Y. apply in_elems in Y as ((j, g) & Hj & Y). rewrite (item_bucket j g y); auto.
    apply Nat.eqb_neq. exact (H _ Hj). }
  rewrite (Eq I1), (Eq I2), app_nil_r.
  - cbn [app]. f_equal. symmetry. apply filter_yes. intros y Y. apply in_elems in Y as ((j, g) & Hj & Y). rewrite (item_bucket j g y); auto.
    + apply Nat.eqb_eq. exact (HM _ Hj).
    + rewrite E, !in_app_iff. auto.
  - intros it H. rewrite E, !in_app_iff. auto.
  - intros it H. apply HN. rewrite in_app_iff. auto.
  - intros it H. rewrite E, !in_app_iff. auto.
  - intros it H. apply HN. rewrite in_app_iff. auto.
Qed.
Lemma begin_local_ok i : i < n -> Rd (pri (PB a i)) (List.hd null (within i)) (hp t).
Proof.
  intros Li. replace (List.hd null (within i)) with (bfirst i I); [eapply bucket_lay; eauto|].
  unfold within. destruct (bfirst_split i I) as [(I1 & g & I2 & E & N & ->)|(N & ->)].
  - rewrite E, elems_app, elems_cons, !filter_app, (filter_no _ (elems I1)).
    + rewrite (filter_yes _ g).
      * destruct (item_shaped I1 i g I2 E) as (_ & Sg). apply shaped_ne in Sg. destruct g; easy.
      * intros y Y. apply Nat.eqb_eq. apply (item_bucket i g y); auto. rewrite E, in_app_iff. right. now left.
    + intros y Y. apply in_elems in Y as ((j, h) & Hj & Y). rewrite (item_bucket j h y); auto.
      * apply Nat.eqb_neq. intros ->. apply N. change i with (fst (i, h)). now apply in_map.
      * rewrite E, in_app_iff. auto.
  - rewrite filter_no; [reflexivity|]. intros y Y. apply in_elems in Y as ((j, h) & Hj & Y). rewrite (item_bucket j h y); auto.
    apply Nat.eqb_neq. intros ->. apply N. change i with (fst (i, h)). now apply in_map.
Qed.
Lemma local_any l1 x l2 i : elems I = l1 ++ x :: l2 -> position (hash (kf x)) n = i ->
  Rd (after_local uniq x) (match l2 with y :: _ => if position (hash (kf y)) n =? i then y else null | [] => null end) (hp t).
Proof.
  intros E Ei. destruct (elems_cut x I l1 l2 E) as (I1 & j & g1 & g2 & I2 & EI & -> & ->).
  assert (Hj : In (j, g1 ++ x :: g2) I) by (rewrite EI, in_app_iff; right; now left).
  assert (j = i) as ->. { rewrite <- Ei. symmetry. apply (item_bucket j _ x Hj). rewrite in_app_iff. right. now left. }
  destruct g2 as [|y g2]; cbn [app].
  - assert (R := after_local_last _ _ _ _ EI). unfold last_of in R. rewrite last_last in R. unfold locally in R.
    destruct I2 as [|(k, h) I2]; cbn [nidx nnode] in R.
    + rewrite (proj2 (Nat.eqb_neq i n)) in R; [exact R|]. destruct (item_shaped _ _ _ _ EI). lia.
    + assert (EI' : I = (I1 ++ [(i, g1 ++ [x])]) ++ (k, h) :: I2) by now rewrite <- app_assoc.
      destruct (item_shaped _ _ _ _ EI') as (_ & Sh). apply shaped_ne in Sh. rewrite elems_cons. destruct h as [|z h]; [easy|].
      cbn [app]. rewrite (item_bucket k (z :: h) z); [|rewrite EI', in_app_iff; right; now left|now left].
      rewrite Nat.eqb_sym. exact R.
  - rewrite (item_bucket i _ y Hj); [|rewrite in_app_iff; right; right; now left]. rewrite Nat.eqb_refl.
    apply (after_in I1 i g1 x y g2 I2 EI).
Qed.
Lemma next_local_ok i b1 x b2 : within i = b1 ++ x :: b2 -> Rd (after_local uniq x) (List.hd null b2) (hp t).
Proof.
  intros Eb. destruct (within_ok i) as (l1 & l2 & E). rewrite Eb in E.
  assert (Hx : position (hash (kf x)) n = i).
  { apply Nat.eqb_eq. assert (X : In x (within i)) by (rewrite Eb, in_app_iff; right; now left). unfold within in X. now apply filter_In in X. }
  assert (E' : elems I = (l1 ++ b1) ++ x :: b2 ++ l2) by (rewrite E, <- !app_assoc; reflexivity).
  assert (R := local_any _ _ _ E' Hx). destruct b2 as [|y b2]; cbn [app List.hd] in *.
  - destruct l2 as [|y l2]; [exact R|]. destruct (position (hash (kf y)) n =? i) eqn:Ey; [exfalso|exact R].
    assert (X : In y (within i)).
    { unfold within. apply filter_In. split; auto. rewrite E', in_app_iff. right. right. now left. }
    assert (Nd := nodup_lay). inversion Nd as [|? ? _ Nd']; subst. rewrite E in Nd'. apply NoDup_app_iff in Nd' as (_ & Nd' & _).
    apply NoDup_app_iff in Nd' as (_ & _ & D). apply (D y); [now rewrite <- Eb|now left].
  - assert (X : In y (within i)) by (rewrite Eb, in_app_iff; right; right; now left). unfold within in X. apply filter_In in X as (_ & X).
    rewrite X in R. exact R.
Qed.
Lemma bucket_loop_ok i : forall b2 b1 fuel res, within i = b1 ++ b2 -> length b2 < fuel ->
  Ro (bucket_loop uniq L fuel (List.hd null b2) res) (fun r => r = res + length b2).
Proof.
  induction b2 as [|x b2 IH]; intros b1 fuel res E Lf; destruct fuel as [|fuel]; try (cbn in Lf; lia); cbn [bucket_loop List.hd].
  - cbn [Nat.eqb]. apply Ro_ret. cbn. lia.
  - assert (Nx : x <> null).
    { assert (X : In x (within i)) by (rewrite E, in_app_iff; right; now left). unfold within in X. apply filter_In in X as (X & _).
      intros ->. exact (wfi_null Wf X). }
    rewrite (proj2 (Nat.eqb_neq _ _) Nx). eapply Ro_hp; [exact (next_local_ok i b1 x b2 E)|].
    eapply Ro_conseq; [apply (IH (b1 ++ [x]))|].
    + rewrite <- app_assoc. exact E.
    + cbn in Lf. lia.
    + cbn beta. intros r ->. cbn. lia.
Qed.
Lemma bucket_size_ok i : i < n -> Ro (bucket_size uniq L i) (fun r => r = length (within i)).
Proof.
  intros Li. unfold bucket_size, at_. apply Ro_get. eapply Ro_hp; [exact (begin_local_ok Li)|]. apply Ro_bound.
  apply (bucket_loop_ok i (within i) []); auto. destruct (within_ok i) as (l1 & l2 & E).
  assert (H := SZ). rewrite E, !app_length in H. lia.
Qed.
End State.
End Point.
