(** Safe mode: the lists of iterators are as they should be. *)
From Coq Require Import ZArith.
From Verif Require Import Prelude Safe.
Set Implicit Arguments.

(** what a client can see of an iterator: get_node(), owner(), unchecked(); and of an index: end() and the elements *)
Definition vw (s : sst) (a : nat) : option (node * nat * bool) := option_map (fun x => (inode x, icont x, iunch x)) (its s a).
Definition cw (s : sst) (c : nat) : option (node * list node) := option_map (fun k => (hnode k, elts k)) (cts s c).

Definition nx (s : sst) (a : nat) : nat := match its s a with Some x => inext x | None => 0 end.
Fixpoint chain (f : nat -> nat) (n : nat) (l : list nat) : Prop :=
  match l with [] => n = 0 | a :: l => n = a /\ chain f (f a) l end.
Lemma chain_ext f g l : forall n, (forall b, In b l -> g b = f b) -> chain f n l -> chain g n l.
Proof.
  induction l as [|a l IH]; intros n H C; cbn in *; auto. destruct C as (-> & C). split; auto. rewrite (H a); auto.
Qed.
Lemma chain_hd f n l : chain f n l -> n = hd 0 l.
Proof. destruct l; cbn; auto. intros (-> & _). reflexivity. Qed.
(** [G c]: the list of iterators of [c]; [X] is not in its list *)
Record wfx (s : sst) (G : nat -> list nat) (X : nat) : Prop := mkWf {
  x_ch : forall c k, cts s c = Some k -> chain (nx s) (hnext k) (G c);
  x_nd : forall c, NoDup (G c);
  x_mem : forall c b, In b (G c) <-> c <> 0 /\ b <> X /\ exists y, its s b = Some y /\ icont y = c;
  x_own : forall b y, its s b = Some y -> icont y = 0 \/ cts s (icont y) <> None;
  x_its0 : its s 0 = None;
  x_cts0 : cts s 0 = None;
  x_dom : forall b, its s b <> None -> In b (dom s) }.
Definition wf s G := wfx s G 0.
Definition inv s := exists G, wf s G.

Lemma its_alive s a v : vw s a = Some v -> exists x, its s a = Some x /\ v = (inode x, icont x, iunch x).
Proof. unfold vw. destruct (its s a) as [x|]; cbn; [|easy]. intros [= <-]. eauto. Qed.
Lemma cts_alive s c h l : cw s c = Some (h, l) -> exists k, cts s c = Some k /\ hnode k = h /\ elts k = l.
Proof. unfold cw. destruct (cts s c) as [x|]; cbn; [|easy]. intros [= <- <-]. eauto. Qed.
Lemma cw_none s c : cw s c = None <-> cts s c = None.
Proof. unfold cw. destruct (cts s c); cbn; split; easy. Qed.
Lemma vw_none s c : vw s c = None <-> its s c = None.
Proof. unfold vw. destruct (its s c); cbn; split; easy. Qed.

Section Core.
Implicit Types (s : sst) (G : nat -> list nat).
(** how far an operation changes what a client sees of the iterators *)
Record to s s' (f : nat -> option (node * nat * bool)) : Prop := mkTo {
  to_v : forall b, vw s' b = f b;
  to_c : forall c, cw s' c = cw s c;
  to_d : dom s' = dom s }.

Definition linked (G : nat -> list nat) (a d : nat) : nat -> list nat := if d =? 0 then G else upd G d (a :: G d).
Lemma mem_alive s G X c b : wfx s G X -> In b (G c) -> its s b <> None.
Proof. intros W J. apply (x_mem W) in J as (_ & _ & y & E & _). congruence. Qed.
(** attach of an iterator in no list *)
Lemma attach_ok s G a x d : wfx s G a -> its s a = Some x -> d = 0 \/ cts s d <> None ->
  exists s', attach a d s = Ret tt s' /\ wf s' (linked G a d) /\ to s s' (upd (vw s) a (Some (inode x, d, iunch x))).
Proof.
  intros W Ha Hd. assert (Na : forall c, ~ In a (G c)). { intros c J. apply (x_mem W) in J. tauto. }
  assert (A0 : a <> 0). { intros ->. rewrite (x_its0 W) in Ha. discriminate. }
  unfold attach, linked. unfold set_cont, load, store, bind. rewrite Ha, Ha. destruct (Nat.eqb_spec d 0) as [->|Nd].
  - eexists. split; [reflexivity|]. split.
    + split; cbn.
      * intros c k Hk. eapply chain_ext; [|apply (x_ch W _ Hk)]. intros b J. unfold nx. cbn. rewrite upd_neq; auto. intros ->. now apply Na in J.
      * apply W.
      * intros c b. rewrite (x_mem W). split.
        -- intros (N & Nb & y & Hy & E). splits; auto. { intros ->. rewrite (x_its0 W) in Hy. discriminate. } exists y. rewrite upd_neq; auto.
        -- intros (N & Nb & y & Hy & E). unfold upd in Hy. destruct (Nat.eqb_spec b a) as [->|Nba].
           { injection Hy as <-. cbn in E. congruence. } splits; eauto.
      * intros b y Hy. unfold upd in Hy. destruct (Nat.eqb_spec b a) as [->|Nba].
        { injection Hy as <-. now left. } eapply (x_own W); eauto.
      * rewrite upd_neq; auto. apply W.
      * apply W.
      * intros b Hb. unfold upd in Hb. apply (x_dom W). destruct (Nat.eqb_spec b a) as [Z|Z]; [rewrite Z|]; congruence.
    + split; cbn; auto. intros b. unfold vw, upd. cbn. destruct (Nat.eqb_spec b a); auto.
  - destruct Hd as [|Hd]; [easy|]. destruct (cts s d) as [k|] eqn:Hk; [|easy]. unfold get_next, set_next, index, store_index, load, store, bind, ret. cbn.
    repeat (progress (rewrite ?Hk, ?upd_eq; cbn)). eexists. split; [reflexivity|]. split.
    + split; cbn.
      * intros c k' Hk'. unfold upd in Hk'. destruct (Nat.eqb_spec c d) as [->|Nc].
        -- injection Hk' as <-. cbn. rewrite upd_eq. cbn. split; auto. unfold nx at 2. cbn. rewrite upd_eq. cbn.
           eapply chain_ext; [|apply (x_ch W _ Hk)]. intros b J. unfold nx. cbn. assert (b <> a) by (intros ->; now apply Na in J). rewrite !upd_neq; auto.
        -- rewrite upd_neq; auto. eapply chain_ext; [|apply (x_ch W _ Hk')]. intros b J. unfold nx. cbn. assert (b <> a) by (intros ->; now apply Na in J). rewrite !upd_neq; auto.
      * intros c. unfold upd. destruct (Nat.eqb_spec c d) as [->|]; [|apply W]. constructor; [apply Na|apply W].
      * intros c b. unfold upd at 1. destruct (Nat.eqb_spec b a) as [->|Nb].
        -- rewrite upd_eq. destruct (Nat.eqb_spec c d) as [->|Nc].
           ++ split; [|intros _; now left]. intros _. splits; auto. eexists. split; [reflexivity|]. reflexivity.
           ++ split; [intros J; now apply Na in J|]. intros (_ & _ & y & Hy & E). injection Hy as <-. cbn in E. congruence.
        -- rewrite !(upd_neq _ _ Nb). destruct (Nat.eqb_spec c d) as [->|Nc].
           ++ split; [intros [->|J]; [easy|]|intros H; right]; [apply (x_mem W) in J as (? & ? & y & Hy & E)|apply (x_mem W)].
              ** splits; eauto. intros ->. rewrite (x_its0 W) in Hy. discriminate.
              ** tauto.
           ++ rewrite (x_mem W). split; intros (N1 & N2 & y & Hy & E); splits; eauto. intros ->. rewrite (x_its0 W) in Hy. discriminate.
      * intros b y Hy. unfold upd in *. destruct (Nat.eqb_spec b a) as [->|Nba].
        { injection Hy as <-. cbn. right. now rewrite Nat.eqb_refl. }
        destruct (x_own W _ Hy) as [E|E]; auto. right. destruct (icont y =? d); congruence.
      * rewrite !upd_neq; auto. apply W.
      * rewrite upd_neq; auto. apply W.
      * intros b Hb. unfold upd in Hb. apply (x_dom W). destruct (Nat.eqb_spec b a) as [Z|Z]; [rewrite Z|]; congruence.
    + split; cbn; auto.
      * intros b. unfold vw, upd. cbn. destruct (Nat.eqb_spec b a); auto.
      * intros c. unfold cw, upd. cbn. destruct (Nat.eqb_spec c d) as [->|]; auto. now rewrite Hk.
Qed.
Lemma wf_out s G a x : wf s G -> its s a = Some x -> icont x = 0 -> wfx s G a.
Proof.
  intros W Ha E. split; try apply W. intros c b. rewrite (x_mem W). split; intros (N & Nb & y & Hy & Ey); splits; eauto.
  - intros ->. congruence.
  - intros ->. rewrite (x_its0 W) in Hy. discriminate.
Qed.

(** prev_ when [pre] has been passed *)
Definition at_prev (c : nat) (pre : list nat) : prev := match rev pre with [] => PH c | a :: _ => PI a end.
Lemma at_prev_snoc c pre a : at_prev c (pre ++ [a]) = PI a.
Proof. unfold at_prev. now rewrite rev_app_distr. Qed.
Lemma chain_next s G X c k pre l : wfx s G X -> cts s c = Some k -> G c = pre ++ l -> get_next (at_prev c pre) s = Ret (hd 0 l) s.
Proof.
  intros W Hk E. assert (C := x_ch W _ Hk). rewrite E in C. assert (Al : forall b, In b pre -> its s b <> None).
  { intros b J. apply (@mem_alive s G X c); auto. rewrite E. apply in_or_app. now left. }
  destruct (rev pre) as [|b r] eqn:Er.
  - assert (pre = []) as -> by (rewrite <- (rev_involutive pre), Er; reflexivity). cbn in *. unfold index, bind, ret. rewrite Hk.
    now rewrite (chain_hd _ _ _ C).
  - assert (P : pre = rev r ++ [b]) by (rewrite <- (rev_involutive pre), Er; reflexivity). rewrite P, at_prev_snoc. cbn. unfold load, bind, ret.
    assert (Hb : its s b <> None) by (apply Al; rewrite P; apply in_or_app; right; now left). destruct (its s b) as [y|] eqn:Hy; [|easy].
    rewrite P, <- app_assoc in C. clear - C Hy. f_equal. revert C. generalize (hnext k). induction (rev r) as [|a l' IH]; cbn; intros n.
    + intros (-> & C). unfold nx in C at 2. rewrite Hy in C. now apply chain_hd in C.
    + intros (-> & C). eauto.
Qed.
(** unlinking *)
Lemma chain_drop f g pre a post : forall n, chain f n (pre ++ a :: post) -> NoDup (pre ++ a :: post) ->
  match rev pre with
  | [] => (forall b, In b post -> g b = f b) -> chain g (f a) post
  | b :: _ => g b = f a -> (forall b', b' <> b -> In b' (pre ++ post) -> g b' = f b') -> chain g n (pre ++ post)
  end.
Proof.
  destruct (rev pre) as [|b r] eqn:Er.
  - assert (pre = []) as -> by (rewrite <- (rev_involutive pre), Er; reflexivity). cbn. intros n (-> & C) _ H. eapply chain_ext; eauto.
  - assert (pre = rev r ++ [b]) as -> by (rewrite <- (rev_involutive pre), Er; reflexivity). clear Er. rewrite <- !app_assoc. cbn [app].
    induction (rev r) as [|x l IH]; cbn; intros n.
    + intros (-> & Fb & C) ND E H. split; auto. rewrite E. inversion ND as [|? ? N1 ND']; subst. eapply chain_ext; [|exact C]. intros b' J. apply H; auto.
      intros ->. apply N1. now right.
    + intros (-> & C) ND E H. inversion ND as [|? ? N1 ND']; subst. split; auto. rewrite (H x); [apply IH; auto| |now left].
      intros ->. apply N1. apply in_or_app. right. now left.
Qed.
Lemma unlink_ok s G c k pre a post : wf s G -> cts s c = Some k -> G c = pre ++ a :: post ->
  exists s' x, its s' a = Some x /\ its s a = Some x /\ get_next (PI a) s = Ret (nx s a) s /\ set_next (at_prev c pre) (nx s a) s = Ret tt s' /\
    wfx s' (upd G c (pre ++ post)) a /\ to s s' (vw s).
Proof.
  intros W Hk E. assert (ND := x_nd W c). rewrite E in ND.
  assert (Ia : In a (G c)) by (rewrite E; apply in_or_app; right; now left). destruct (proj1 (x_mem W _ _) Ia) as (Nc & Na0 & x & Hx & Ex).
  assert (Np : ~ In a pre /\ ~ In a post). { apply NoDup_remove_2 in ND. split; intros J; apply ND, in_or_app; auto. }
  assert (C := x_ch W _ Hk). rewrite E in C. assert (D := fun g => @chain_drop (nx s) g pre a post (hnext k) C ND).
  assert (Ot : forall c', c' <> c -> forall b, In b (G c') -> ~ In b (G c)).
  { intros c' N b J J'. apply (x_mem W) in J as (_ & _ & y & Hy & Ey). apply (x_mem W) in J' as (_ & _ & y' & Hy' & Ey'). congruence. }
  assert (Gn : get_next (PI a) s = Ret (nx s a) s) by (cbn; unfold load, bind, ret, nx; now rewrite Hx).
  assert (ND2 : NoDup (pre ++ post)) by (eapply NoDup_remove_1; eauto).
  assert (Mm : forall s', (forall b, vw s' b = vw s b) -> forall c' b, In b (upd G c (pre ++ post) c') <->
     c' <> 0 /\ b <> a /\ exists y, its s' b = Some y /\ icont y = c').
  { intros s' V c' b. assert (Z : forall c'', (exists y, its s' b = Some y /\ icont y = c'') <-> exists y, its s b = Some y /\ icont y = c'').
    { intros c''. specialize (V b). unfold vw in V. destruct (its s' b) as [y|], (its s b) as [y'|]; cbn in V; try easy.
      injection V as V1 V2 V3. split; intros (z & Hz & Ez); injection Hz as <-; eexists; (split; [reflexivity|congruence]). }
    rewrite Z. unfold upd. destruct (Nat.eqb_spec c' c) as [->|N].
    - assert (Q : In b (pre ++ post) <-> In b (G c) /\ b <> a).
      { rewrite E, !in_app_iff. cbn. split; [intros J; split; [tauto|intros ->; tauto]|]. intros ([J|[J|J]] & Nb); auto. congruence. }
      rewrite Q, (x_mem W). split.
      + intros ((A & B & H) & N). auto.
      + intros (A & B & H). splits; auto. intros ->. destruct H as (y & Hy & _). rewrite (x_its0 W) in Hy. discriminate.
    - rewrite (x_mem W). split; intros (A & B & H); splits; auto.
      + intros ->. destruct H as (y & Hy & Ey). congruence.
      + intros ->. destruct H as (y & Hy & _). rewrite (x_its0 W) in Hy. discriminate. }
  destruct (rev pre) as [|b r] eqn:Er.
  - assert (pre = []) as -> by (rewrite <- (rev_involutive pre), Er; reflexivity). clear Er. cbn [app] in *.
    unfold at_prev. cbn [rev]. unfold set_next, index, store_index, bind. rewrite Hk, Hk. exists (mkS (its s) (dom s) (upd (cts s) c (Some (mkCont (nx s a) (hnode k) (elts k))))), x.
    splits; auto.
    + split; cbn.
      * intros c' k' Hk'. unfold upd in *. destruct (Nat.eqb_spec c' c) as [->|N].
        -- injection Hk' as <-. cbn. apply (D (nx s)). auto.
        -- apply (x_ch W _ Hk').
      * intros c'. unfold upd. destruct (c' =? c); auto. apply W.
      * apply Mm. reflexivity.
      * intros b y Hy. destruct (x_own W _ Hy) as [Z|Z]; auto. right. unfold upd. destruct (icont y =? c); congruence.
      * apply W.
      * rewrite upd_neq; auto. apply W.
      * apply W.
    + split; cbn; auto. intros c'. unfold cw, upd. cbn. destruct (Nat.eqb_spec c' c) as [->|]; auto. now rewrite Hk.
  - assert (P : pre = rev r ++ [b]) by (rewrite <- (rev_involutive pre), Er; reflexivity).
    assert (Ib : In b pre) by (rewrite P; apply in_or_app; right; now left). assert (Nb : b <> a) by (intros ->; tauto).
    assert (Ib' : In b (G c)) by (rewrite E; apply in_or_app; now left). destruct (proj1 (x_mem W _ _) Ib') as (_ & Nb0 & y & Hy & Ey).
    unfold at_prev. rewrite Er. unfold set_next, load, store, bind. rewrite Hy, Hy.
    exists (mkS (upd (its s) b (Some (mkCell (inode y) (icont y) (nx s a) (iunch y)))) (dom s) (cts s)), x. splits; [cbn; rewrite upd_neq; auto|auto|auto|reflexivity| |].
    + assert (Nx : forall b', nx (mkS (upd (its s) b (Some (mkCell (inode y) (icont y) (nx s a) (iunch y)))) (dom s) (cts s)) b' = if b' =? b then nx s a else nx s b').
      { intros b'. unfold nx at 1. cbn. unfold upd. destruct (b' =? b); reflexivity. }
      split; cbn.
      * intros c' k' Hk'. unfold upd at 2. destruct (Nat.eqb_spec c' c) as [->|N].
        -- assert (k' = k) as -> by congruence. apply D.
           ++ now rewrite Nx, Nat.eqb_refl.
           ++ intros b' N _. rewrite Nx. now apply Nat.eqb_neq in N as ->.
        -- eapply chain_ext; [|apply (x_ch W _ Hk')]. intros b' J. rewrite Nx. destruct (Nat.eqb_spec b' b) as [->|]; auto. now apply (Ot c' N) in J.
      * intros c'. unfold upd. destruct (c' =? c); auto. apply W.
      * apply (Mm (mkS (upd (its s) b (Some (mkCell (inode y) (icont y) (nx s a) (iunch y)))) (dom s) (cts s))). intros b'. unfold vw, upd. cbn. destruct (Nat.eqb_spec b' b) as [->|]; auto. now rewrite Hy.
      * intros b' y' Hy'. unfold upd in Hy'. destruct (Nat.eqb_spec b' b) as [->|]; [|apply (x_own W _ Hy')]. injection Hy' as <-. cbn. apply (x_own W _ Hy).
      * rewrite upd_neq; auto. apply W.
      * apply W.
      * intros b' Hb. unfold upd in Hb. apply (x_dom W). destruct (Nat.eqb_spec b' b) as [Z|Z]; [rewrite Z|]; congruence.
    + split; cbn; auto. intros b'. unfold vw, upd. cbn. destruct (Nat.eqb_spec b' b) as [->|]; auto. now rewrite Hy.
Qed.
End Core.

(** ** what a client sees before and after *)
Definition abs : Type := (nat -> option (node * nat * bool)) * (nat -> option (node * list node)).
Definition st (s : sst) (v : abs) : Prop := inv s /\ (forall b, vw s b = fst v b) /\ (forall c, cw s c = snd v c).
Definition T {A} (m : SM A) (v : abs) (Q : A -> abs -> Prop) (E : abs -> Prop) : Prop :=
  forall s, st s v -> wp m (fun r s' => exists v', Q r v' /\ st s' v') (fun s' => exists v', E v' /\ st s' v') s.
Section Rules.
Variables (A B : Type).
Implicit Types (v : abs).
Lemma T_ret (r : A) v (Q : A -> abs -> Prop) E : Q r v -> T (ret r) v Q E.
Proof. intros H s S. cbn. eauto. Qed.
Lemma T_throw v (Q : A -> abs -> Prop) (E : abs -> Prop) : E v -> T throw v Q E.
Proof. intros H s S. cbn. eauto. Qed.
Lemma T_bind (m : SM A) (k : A -> SM B) v Q E : T m v (fun r v' => T (k r) v' Q E) E -> T (bind m k) v Q E.
Proof. intros H s S. apply wp_bind. eapply wp_conseq; [apply (H s S)| |auto]. cbn. intros r s' (v' & H' & S'). now apply H'. Qed.
Lemma T_try (m h : SM A) v Q E : T m v Q (fun v' => T h v' Q E) -> T (try_catch m h) v Q E.
Proof. intros H s S. apply wp_try. eapply wp_conseq; [apply (H s S)|auto|]. cbn. intros s' (v' & H' & S'). now apply H'. Qed.
Lemma T_conseq (m : SM A) v (Q Q' : A -> abs -> Prop) (E E' : abs -> Prop) :
  T m v Q E -> (forall r v', Q r v' -> Q' r v') -> (forall v', E v' -> E' v') -> T m v Q' E'.
Proof. intros H H1 H2 s S. eapply wp_conseq; [apply (H s S)| |]; cbn; [intros r s' (v' & X & Y)|intros s' (v' & X & Y)]; eauto. Qed.
Lemma T_same (m : SM A) v v' Q E : (forall b, fst v b = fst v' b) -> (forall c, snd v c = snd v' c) -> T m v Q E -> T m v' Q E.
Proof. intros H1 H2 H s (I & S1 & S2). apply H. split; auto. split; intros b; [now rewrite H1|now rewrite H2]. Qed.
Lemma T_ub v (Q : A -> abs -> Prop) E : False -> T ub v Q E.
Proof. easy. Qed.
End Rules.

Lemma T_load a v n c u (Q : cell -> abs -> Prop) E : fst v a = Some (n, c, u) -> (forall x, inode x = n -> icont x = c -> iunch x = u -> Q x v) -> T (load a) v Q E.
Proof.
  intros H K s S. assert (S' := S). destruct S' as (I & S1 & S2). rewrite <- S1 in H. apply its_alive in H as (x & Hx & [= -> -> ->]).
  unfold wp, load. rewrite Hx. exists v. split; auto.
Qed.
Lemma T_index c v h l (Q : cont -> abs -> Prop) E : snd v c = Some (h, l) -> (forall k, hnode k = h -> elts k = l -> Q k v) -> T (index c) v Q E.
Proof.
  intros H K s S. assert (S' := S). destruct S' as (I & S1 & S2). rewrite <- S2 in H. apply cts_alive in H as (k & Hk & <- & <-).
  unfold wp, index. rewrite Hk. exists v. split; auto.
Qed.
Definition vset (v : abs) a x : abs := (upd (fst v) a (Some x), snd v).
Definition vdel (v : abs) a : abs := (upd (fst v) a None, snd v).
Definition cset (v : abs) c x : abs := (fst v, upd (snd v) c (Some x)).

(** changing a cell but for its links *)
Lemma keep_wf s G a x y : wf s G -> its s a = Some x -> icont y = icont x -> inext y = inext x ->
  wf (mkS (upd (its s) a (Some y)) (dom s) (cts s)) G.
Proof.
  intros W Hx E1 E2. assert (N : forall b, nx (mkS (upd (its s) a (Some y)) (dom s) (cts s)) b = nx s b).
  { intros b. unfold nx, upd. cbn. destruct (Nat.eqb_spec b a) as [->|]; auto. now rewrite Hx. }
  split; cbn; try apply W.
  - intros c k Hk. eapply chain_ext; [|apply (x_ch W _ Hk)]. intros b _. apply N.
  - intros c b. rewrite (x_mem W). unfold upd. destruct (Nat.eqb_spec b a) as [Z|Z]; [|tauto]. rewrite Z. split; intros (H1 & H2 & z & Hz & Ez); splits; auto.
    + exists y. split; auto. congruence.
    + exists x. split; auto. congruence.
  - intros b z Hz. unfold upd in Hz. destruct (Nat.eqb_spec b a) as [Z|Z]; [|eapply (x_own W); eauto]. injection Hz as <-. rewrite E1. eapply (x_own W); eauto.
  - unfold upd. destruct (Nat.eqb_spec 0 a) as [Z|Z]; [|apply W]. rewrite <- Z, (x_its0 W) in Hx. discriminate.
  - intros b Hb. apply (x_dom W). unfold upd in Hb. destruct (Nat.eqb_spec b a) as [Z|Z]; [rewrite Z|]; congruence.
Qed.
Lemma T_set_node a v n c u m (Q : unit -> abs -> Prop) E : fst v a = Some (n, c, u) -> Q tt (vset v a (m, c, u)) -> T (set_node a m) v Q E.
Proof.
  intros H K s ((G & W) & S1 & S2). rewrite <- S1 in H. apply its_alive in H as (x & Hx & [= -> -> ->]).
  unfold wp, set_node, load, store, bind. rewrite Hx, Hx. eexists. split; [exact K|]. split; [|split].
  - exists G. eapply keep_wf; eauto.
  - intros b. cbn. unfold vw, upd. cbn. destruct (Nat.eqb_spec b a); auto. apply S1.
  - apply S2.
Qed.
Lemma T_set_unchecked a v n c u u' (Q : unit -> abs -> Prop) E : fst v a = Some (n, c, u) -> Q tt (vset v a (n, c, u')) -> T (set_unchecked a u') v Q E.
Proof.
  intros H K s ((G & W) & S1 & S2). rewrite <- S1 in H. apply its_alive in H as (x & Hx & [= -> -> ->]).
  unfold wp, set_unchecked, load, store, bind. rewrite Hx, Hx. eexists. split; [exact K|]. split; [|split].
  - exists G. eapply keep_wf; eauto.
  - intros b. cbn. unfold vw, upd. cbn. destruct (Nat.eqb_spec b a); auto. apply S1.
  - apply S2.
Qed.
Lemma T_attach a d v n u (Q : unit -> abs -> Prop) E : fst v a = Some (n, 0, u) -> d = 0 \/ snd v d <> None -> Q tt (vset v a (n, d, u)) -> T (attach a d) v Q E.
Proof.
  intros H Hd K s ((G & W) & S1 & S2). rewrite <- S1 in H. apply its_alive in H as (x & Hx & [= -> Ex ->]).
  destruct (@attach_ok s G a x d) as (s' & R & W' & [V C D]); auto.
  - eapply wf_out; eauto.
  - destruct Hd as [|Hd]; auto. right. rewrite <- S2 in Hd. intros X. apply Hd. now apply cw_none.
  - unfold wp. rewrite R. eexists. split; [exact K|]. split; [eexists; eauto|]. split; intros b; cbn.
    + rewrite V. unfold upd. destruct (b =? a); auto.
    + now rewrite C.
Qed.

(** find_prev goes through the list *)
Lemma find_prev_ok s G c k a : wf s G -> cts s c = Some k -> forall p2 fuel p1 post, G c = p1 ++ p2 ++ a :: post -> length p2 <= fuel ->
  find_prev fuel a (at_prev c p1) s = Ret (at_prev c (p1 ++ p2)) s.
Proof.
  intros W Hk. induction p2 as [|b p2 IH]; intros fuel p1 post E L.
  - destruct fuel; cbn [find_prev]; unfold bind; rewrite (@chain_next s G 0 c k p1 (a :: post) W Hk E); cbn; rewrite Nat.eqb_refl, app_nil_r; reflexivity.
  - destruct fuel as [|fuel]; cbn in L; [lia|]. cbn [find_prev]. unfold bind. rewrite (@chain_next s G 0 c k p1 _ W Hk E). cbn.
    destruct (Nat.eqb_spec b a) as [->|N].
    + exfalso. assert (ND := x_nd W c). rewrite E in ND. apply NoDup_app_iff in ND as (_ & ND & _). inversion ND as [|? ? X _]; subst. apply X, in_or_app. right. now left.
    + rewrite <- at_prev_snoc with (c := c) (pre := p1). rewrite (IH fuel (p1 ++ [b]) post); [now rewrite <- app_assoc| |lia]. now rewrite <- app_assoc.
Qed.
Lemma len_dom s G c : wf s G -> length (G c) <= length (dom s).
Proof.
  intros W. apply NoDup_incl_length; [apply W|]. intros b J. apply (x_dom W). apply (x_mem W) in J as (_ & _ & y & Hy & _). congruence.
Qed.
Lemma T_detach a v n c u (Q : unit -> abs -> Prop) E : fst v a = Some (n, c, u) -> Q tt (vset v a (n, 0, u)) -> T (detach a) v Q E.
Proof.
  intros H K s ((G & W) & S1 & S2). assert (H' := H). rewrite <- S1 in H'. apply its_alive in H' as (x & Hx & [= -> -> ->]).
  unfold wp, detach, load, bind. rewrite Hx. destruct (Nat.eqb_spec (icont x) 0) as [Z|Nc].
  - cbn. eexists. split; [exact K|]. split; [eexists; eauto|]. split; auto. intros b. cbn. unfold upd. destruct (Nat.eqb_spec b a) as [->|]; auto. rewrite S1, H, Z. reflexivity.
  - destruct (x_own W _ Hx) as [|Hc]; [easy|]. destruct (cts s (icont x)) as [k|] eqn:Hk; [|easy].
    assert (J : In a (G (icont x))). { apply (x_mem W). splits; eauto. intros ->. rewrite (x_its0 W) in Hx. discriminate. }
    apply in_split in J as (pre & post & Eg). assert (L := len_dom (icont x) W). rewrite Eg, app_length in L. cbn in L. unfold fuel_of.
    assert (F := @find_prev_ok s G (icont x) k a W Hk pre (S (length (dom s))) [] post). cbn [app] in F. change (at_prev (icont x) []) with (PH (icont x)) in F.
    rewrite F; [|auto|lia]. destruct (@unlink_ok s G (icont x) k pre a post W Hk Eg) as (s1 & x' & Hx1 & Hx' & R1 & R2 & W1 & [V C D]).
    rewrite R1, R2. assert (x' = x) as -> by congruence.
    destruct (@attach_ok s1 _ a x 0 W1 Hx1) as (s2 & R3 & W2 & [V2 C2 D2]); [now left|]. unfold attach in R3. unfold bind in R3.
    destruct (set_cont a 0 s1) as [[] s3| |]; try discriminate. cbn in R3. injection R3 as ->.
    eexists. split; [exact K|]. split; [eexists; exact W2|]. split; intros b; cbn.
    + rewrite V2. unfold upd. destruct (Nat.eqb_spec b a) as [->|]; auto. now rewrite V.
    + now rewrite C2, C.
Qed.
Lemma alloc_ok s G a x : wf s G -> its s a = None -> a <> 0 -> icont x = 0 ->
  exists s', alloc a x s = Ret tt s' /\ wf s' G /\ (forall b, vw s' b = upd (vw s) a (Some (inode x, 0, iunch x)) b) /\ forall c, cw s' c = cw s c.
Proof.
  intros W Ha N E. unfold alloc. rewrite Ha. destruct (Nat.eqb_spec a 0) as [|_]; [easy|]. eexists. split; [reflexivity|]. split.
  - assert (Na : forall c, ~ In a (G c)). { intros c J. apply (x_mem W) in J as (_ & _ & y & Hy & _). congruence. }
    split; cbn; try apply W.
    + intros c k Hk. eapply chain_ext; [|apply (x_ch W _ Hk)]. intros b J. unfold nx. cbn. rewrite upd_neq; auto. intros ->. now apply Na in J.
    + intros c b. rewrite (x_mem W). unfold upd. destruct (Nat.eqb_spec b a) as [->|Z]; [|tauto]. rewrite Ha. split; intros (H1 & H2 & z & Hz & Ez); [discriminate|].
      injection Hz as <-. congruence.
    + intros b y Hy. unfold upd in Hy. destruct (Nat.eqb_spec b a) as [->|Z]; [injection Hy as <-; now left|]. eapply (x_own W); eauto.
    + rewrite upd_neq; auto. apply W.
    + intros b Hb. unfold upd in Hb. destruct (Nat.eqb_spec b a) as [Z|Z]; [now left|right]. now apply (x_dom W).
  - split; auto. intros b. unfold vw, upd. cbn. destruct (b =? a); auto. cbn. now rewrite E.
Qed.
Lemma T_alloc a x v (Q : unit -> abs -> Prop) E : fst v a = None -> a <> 0 -> icont x = 0 -> Q tt (vset v a (inode x, 0, iunch x)) -> T (alloc a x) v Q E.
Proof.
  intros H N Ex K s ((G & W) & S1 & S2). rewrite <- S1 in H. apply vw_none in H. destruct (alloc_ok x W H N Ex) as (s' & R & W' & V & C).
  unfold wp. rewrite R. eexists. split; [exact K|]. split; [eexists; eauto|]. split; intros b; cbn.
  - rewrite V. unfold upd. destruct (b =? a); auto.
  - now rewrite C.
Qed.
Definition eqv (v v' : abs) : Prop := (forall b, fst v b = fst v' b) /\ forall c, snd v c = snd v' c.
Lemma T_ext {A} (m : SM A) v Q E : T m v (fun r v' => exists w, eqv v' w /\ Q r w) (fun v' => exists w, eqv v' w /\ E w) -> T m v Q E.
Proof.
  intros H s S. eapply wp_conseq; [apply (H s S)| |]; cbn; [intros r s'|intros s']; intros (v' & (w & (E1 & E2) & K) & I & S1 & S2); exists w; (split; [auto|]);
  (split; [auto|]); split; intros b; rewrite ?S1, ?S2; auto.
Qed.
Ltac eqv := split; intros ?b; cbn; unfold upd; repeat match goal with |- context [?x =? ?y] => destruct (Nat.eqb_spec x y) end; try congruence; auto.
Lemma T_make a n c v (Q : unit -> abs -> Prop) E : fst v a = None -> a <> 0 -> c = 0 \/ snd v c <> None -> Q tt (vset v a (n, c, false)) -> T (make a n c) v Q E.
Proof.
  intros H N Hc K. unfold make. apply T_ext, T_bind. apply T_alloc; auto. cbn [inode iunch]. eapply T_attach; auto.
  { cbn. now rewrite upd_eq. }
  eexists. split; [|exact K]. eqv.
Qed.
Lemma T_copy a b v n c u (Q : unit -> abs -> Prop) E : fst v a = None -> a <> 0 -> fst v b = Some (n, c, u) -> c = 0 \/ snd v c <> None ->
  Q tt (vset v a (n, c, u)) -> T (copy a b) v Q E.
Proof.
  intros H N Hb Hc K. unfold copy. apply T_ext, T_bind. eapply T_load; eauto. intros x -> -> ->. apply T_bind. apply T_alloc; auto. cbn [inode iunch]. eapply T_attach; auto.
  { cbn. now rewrite upd_eq. }
  eexists. split; [|exact K]. eqv.
Qed.
Lemma free_ok s G a x : wf s G -> its s a = Some x -> icont x = 0 -> wf (mkS (upd (its s) a None) (remove Nat.eq_dec a (dom s)) (cts s)) G.
Proof.
  intros W Ha E. assert (Na : forall c, ~ In a (G c)). { intros c J. apply (x_mem W) in J as (N & _ & y & Hy & Ey). congruence. }
  split; cbn; try apply W.
  - intros c k Hk. eapply chain_ext; [|apply (x_ch W _ Hk)]. intros b J. unfold nx. cbn. rewrite upd_neq; auto. intros ->. now apply Na in J.
  - intros c b. rewrite (x_mem W). unfold upd. destruct (Nat.eqb_spec b a) as [->|Z]; [|tauto]. split; intros (H1 & H2 & z & Hz & Ez); [congruence|discriminate].
  - intros b y Hy. unfold upd in Hy. destruct (Nat.eqb_spec b a); [discriminate|]. eapply (x_own W); eauto.
  - unfold upd. destruct (0 =? a); auto. apply W.
  - intros b Hb. unfold upd in Hb. destruct (Nat.eqb_spec b a) as [Z|Z]; [easy|]. apply in_in_remove; auto. now apply (x_dom W).
Qed.
Lemma T_destroy a v n c u (Q : unit -> abs -> Prop) E : fst v a = Some (n, c, u) -> Q tt (vdel v a) -> T (destroy a) v Q E.
Proof.
  intros H K. unfold destroy. apply T_ext, T_bind. eapply T_detach; eauto. intros s ((G & W) & S1 & S2). cbn.
  assert (H' : vw s a = Some (n, 0, u)) by (rewrite S1; cbn; now rewrite upd_eq). apply its_alive in H' as (x & Hx & [= -> E0 ->]).
  eexists. split; [exists (vdel v a); split; [|exact K]|].
  { split; intros b; reflexivity. }
  split; [|split].
  - exists G. eapply free_ok; eauto.
  - intros b. unfold vw. cbn. unfold upd. destruct (Nat.eqb_spec b a); auto. specialize (S1 b). cbn in S1. unfold upd in S1. destruct (Nat.eqb_spec b a); [easy|]. exact S1.
  - exact S2.
Qed.
Lemma T_set_elts c l v h l0 (Q : unit -> abs -> Prop) E : snd v c = Some (h, l0) -> Q tt (cset v c (h, l)) -> T (set_elts c l) v Q E.
Proof.
  intros H K s ((G & W) & S1 & S2). rewrite <- S2 in H. apply cts_alive in H as (k & Hk & <- & <-).
  unfold wp, set_elts, index, store_index, bind. rewrite Hk, Hk. eexists. split; [exact K|]. split; [|split].
  - exists G. split; cbn; try apply W.
    + intros c' k' Hk'. unfold upd in Hk'. destruct (Nat.eqb_spec c' c) as [->|]; [|apply (x_ch W _ Hk')]. injection Hk' as <-. cbn. apply (x_ch W _ Hk).
    + intros b y Hy. destruct (x_own W _ Hy) as [Z|Z]; auto. right. unfold upd. destruct (icont y =? c); congruence.
    + unfold upd. destruct (Nat.eqb_spec 0 c) as [Z|]; [|apply W]. rewrite <- Z, (x_cts0 W) in Hk. discriminate.
  - exact S1.
  - intros b. unfold cw, upd. cbn. unfold upd. destruct (b =? c); auto. apply S2.
Qed.

(** ** the loops *)
Lemma equal_eq s a b x y : its s a = Some x -> its s b = Some y -> icont x = icont y -> icont x <> 0 -> equal a b s = Ret (inode x =? inode y) s.
Proof.
  intros Ha Hb E N. unfold equal, check, check_valid_iterator, check_same_owner, load, bind, ret, is_valid. apply Nat.eqb_neq in N.
  repeat (progress (rewrite ?Ha, ?Hb, <- ?E, ?N, ?Nat.eqb_refl; cbn)). reflexivity.
Qed.
Definition recont (d : nat) (x : option (node * nat * bool)) : option (node * nat * bool) := option_map (fun y => (fst (fst y), d, snd y)) x.
Lemma sweep_ok (sel : nat -> SM bool) (P : nat -> bool) t c d h l0 : c <> d -> P t = false -> forall l fuel s G pre,
  wf s G -> cw s c = Some (h, l0) -> d = 0 \/ cts s d <> None -> G c = pre ++ l -> length l <= fuel ->
  (forall s' n, In n l -> vw s' n = vw s n -> vw s' t = vw s t -> sel n s' = Ret (P n) s') ->
  exists s' G', sweep sel d fuel (at_prev c pre) s = Ret tt s' /\ wf s' G' /\
    (forall b, vw s' b = if (existsb (Nat.eqb b) l && P b)%bool then recont d (vw s b) else vw s b) /\ (forall c', cw s' c' = cw s c').
Proof.
  intros Ncd Pt. induction l as [|a l IH]; intros fuel s G pre W Hc Hd E L Hs; destruct (cts_alive _ _ Hc) as (k & Hk & _ & _).
  - exists s, G. splits; auto. destruct fuel; cbn [sweep]; unfold bind; rewrite (@chain_next s G 0 c k pre [] W Hk E); reflexivity.
  - destruct fuel as [|fuel]; cbn in L; [lia|]. cbn [sweep]. unfold bind at 1. rewrite (@chain_next s G 0 c k pre (a :: l) W Hk E). cbn [hd].
    assert (ND := x_nd W c). rewrite E in ND. assert (ND1 := NoDup_remove_1 _ _ _ ND). assert (ND2 := NoDup_remove_2 _ _ _ ND). rewrite in_app_iff in ND2.
    assert (Ia : In a (G c)) by (rewrite E; apply in_or_app; right; now left). destruct (proj1 (x_mem W _ _) Ia) as (Nc & Na & x & Hx & Ex).
    destruct (Nat.eqb_spec a 0) as [|_]; [easy|]. unfold bind at 1. rewrite Hs; auto; [|now left].
    assert (Nl : existsb (Nat.eqb a) l = false). { apply not_true_iff_false. intros X. apply existsb_exists in X as (b & J & Eb). apply Nat.eqb_eq in Eb as <-. tauto. }
    destruct (P a) eqn:Pa.
    + destruct (@unlink_ok s G c k pre a l W Hk E) as (s1 & x' & Hx1 & Hx' & R1 & R2 & W1 & [V1 C1 D1]). assert (x' = x) as -> by congruence.
      assert (Hd1 : d = 0 \/ cts s1 d <> None). { destruct Hd as [|Hd]; auto. right. intros Z. apply Hd. apply cw_none. rewrite <- C1. now apply cw_none. }
      destruct (@attach_ok s1 _ a x d W1 Hx1 Hd1) as (s2 & R3 & W2 & [V2 C2 D2]). unfold bind. rewrite R1, R2, R3.
      assert (Nta : t <> a) by congruence. assert (V : forall b, b <> a -> vw s2 b = vw s b) by (intros b N; rewrite V2, upd_neq, V1; auto).
      destruct (IH fuel s2 _ pre W2) as (s' & G' & R & W' & V' & C'); try lia.
      * now rewrite C2, C1.
      * destruct Hd as [|Hd]; auto. right. intros Z. apply Hd. apply cw_none. rewrite <- C1, <- C2. now apply cw_none.
      * unfold linked. destruct (d =? 0); rewrite ?(upd_neq _ _ Ncd); now rewrite upd_eq.
      * intros s' n J E1 E2. apply Hs; [now right| |].
        -- rewrite E1. apply V. intros ->. tauto.
        -- rewrite E2. now apply V.
      * exists s', G'. splits; auto; [|intros c'; now rewrite C', C2, C1]. intros b. rewrite V'. cbn [existsb]. destruct (Nat.eqb_spec b a) as [->|Nb].
        -- rewrite Nl, Pa. cbn. rewrite V2, upd_eq. unfold vw. rewrite Hx. reflexivity.
        -- cbn. now rewrite V.
    + rewrite <- at_prev_snoc with (c := c) (pre := pre). destruct (IH fuel s G (pre ++ [a]) W) as (s' & G' & R & W' & V' & C'); auto; try lia.
      * now rewrite <- app_assoc.
      * intros s' n J. apply Hs. now right.
      * exists s', G'. splits; auto. intros b. rewrite V'. cbn [existsb]. destruct (Nat.eqb_spec b a) as [->|Nb]; auto. now rewrite Nl, Pa.
Qed.
(** every iterator of [c] which is selected gets the owner [d]; [t], which is not, may be used to find them *)
Definition resend (v : abs) (c d : nat) (P : node -> nat -> bool) : abs :=
  (fun b => match fst v b with Some (n, c', u) => if ((c' =? c) && P n b)%bool then Some (n, d, u) else fst v b | None => None end, snd v).
Lemma T_sweep sel (P : node -> nat -> bool) t m c d v h l (Q : unit -> abs -> Prop) E :
  c <> d -> snd v c = Some (h, l) -> d = 0 \/ snd v d <> None -> fst v t = Some (m, c, false) -> P m t = false ->
  (forall s n b u, vw s b = Some (n, c, u) -> vw s t = Some (m, c, false) -> sel b s = Ret (P n b) s) ->
  Q tt (resend v c d P) ->
  T (fuel_of (fun f => sweep sel d f (PH c))) v Q E.
Proof.
  intros Ncd Hc Hd Ht Pt Hs K s ((G & W) & S1 & S2). unfold wp, fuel_of. change (PH c) with (at_prev c []).
  pose (P' := fun b => match vw s b with Some (n, _, _) => P n b | None => false end).
  destruct (@sweep_ok sel P' t c d h l Ncd) with (l := G c) (fuel := Datatypes.S (length (dom s))) (s := s) (G := G) (pre := @nil nat) as (s' & G' & R & W' & V' & C'); auto.
  - unfold P'. now rewrite S1, Ht.
  - now rewrite S2.
  - destruct Hd as [|Hd]; auto. right. rewrite <- S2 in Hd. intros Z. apply Hd. now apply cw_none.
  - assert (X := len_dom c W). lia.
  - intros s' n J E1 E2. apply (x_mem W) in J as (_ & _ & y & Hy & Ey). unfold P'.
    assert (Vy : vw s n = Some (inode y, c, iunch y)) by (unfold vw; rewrite Hy; cbn; now rewrite Ey). rewrite Vy. eapply Hs; [rewrite E1; exact Vy|]. now rewrite E2, S1.
  - rewrite R. eexists. split; [exact K|]. split; [eexists; eauto|]. split; [|intros c'; cbn; now rewrite C'].
    intros b. rewrite V'. cbn. rewrite <- S1. assert (M := x_mem W c b). unfold P'. unfold vw. destruct (its s b) as [y|] eqn:Hy; cbn.
    + assert (existsb (Nat.eqb b) (G c) = (icont y =? c)) as ->.
      { apply eq_true_iff_eq. rewrite Nat.eqb_eq, existsb_exists. split.
        - intros (b' & J & Eb). apply Nat.eqb_eq in Eb as <-. apply M in J as (_ & _ & y' & Hy' & Ey). congruence.
        - intros Ey. exists b. rewrite Nat.eqb_refl. split; auto. apply M. splits; eauto.
          + intros ->. assert (Z := x_cts0 W). apply cw_none in Z. rewrite S2, Hc in Z. discriminate.
          + intros ->. rewrite (x_its0 W) in Hy. discriminate. }
      destruct ((icont y =? c) && P (inode y) b)%bool; reflexivity.
    + now destruct (existsb (Nat.eqb b) (G c)).
Qed.

(** ** swap, destruction and construction of indices *)
Definition setc (d : nat) (y : cell) : cell := mkCell (inode y) d (inext y) (iunch y).
Lemma relabel_ok d : forall l fuel n s, chain (nx s) n l -> NoDup l -> (forall b, In b l -> its s b <> None) -> its s 0 = None -> length l <= fuel ->
  exists s', relabel fuel n d s = Ret tt s' /\ (forall b, its s' b = if existsb (Nat.eqb b) l then option_map (setc d) (its s b) else its s b) /\
    cts s' = cts s /\ dom s' = dom s.
Proof.
  induction l as [|a l IH]; intros fuel n s C ND Al H0 L.
  - cbn in C. subst n. exists s. splits; auto. now destruct fuel.
  - destruct C as (-> & C). destruct fuel as [|fuel]; cbn in L; [lia|]. cbn [relabel]. inversion ND as [|? ? Na ND']; subst.
    assert (Ha := Al a (or_introl eq_refl)). destruct (its s a) as [x|] eqn:Hx; [|easy]. destruct (Nat.eqb_spec a 0) as [->|N]; [congruence|].
    unfold set_cont, load, store, bind. repeat (progress (rewrite ?Hx, ?upd_eq; cbn)). unfold load, bind, ret. cbn. rewrite upd_eq. cbn.
    assert (Nx : nx s a = inext x) by (unfold nx; now rewrite Hx). rewrite Nx in C.
    destruct (IH fuel (inext x) (mkS (upd (its s) a (Some (mkCell (inode x) d (inext x) (iunch x)))) (dom s) (cts s))) as (s' & R & I & Cc & D); auto; try lia.
    + eapply chain_ext; [|exact C]. intros b J. unfold nx. cbn. rewrite upd_neq; auto. intros ->. easy.
    + intros b J. cbn. unfold upd. destruct (b =? a); [easy|]. apply Al. now right.
    + cbn. rewrite upd_neq; auto.
    + exists s'. splits; auto. intros b. rewrite I. cbn. unfold upd. destruct (Nat.eqb_spec b a) as [->|Nb]; auto. cbn. rewrite Hx.
      destruct (existsb (Nat.eqb a) l) eqn:X; auto.
Qed.
Lemma in_list s G c b y : wf s G -> its s b = Some y -> c <> 0 -> existsb (Nat.eqb b) (G c) = (icont y =? c).
Proof.
  intros W Hy Nc. apply eq_true_iff_eq. rewrite Nat.eqb_eq, existsb_exists. split.
  - intros (b' & J & Eb). apply Nat.eqb_eq in Eb as <-. apply (x_mem W) in J as (_ & _ & y' & Hy' & Ey). congruence.
  - intros Ey. exists b. rewrite Nat.eqb_refl. split; auto. apply (x_mem W). splits; eauto. intros ->. rewrite (x_its0 W) in Hy. discriminate.
Qed.
Definition sw (c d e : nat) : nat := if e =? c then d else if e =? d then c else e.
Lemma sw_sw c d e : sw c d (sw c d e) = e.
Proof. unfold sw. destruct (Nat.eqb_spec e c); [|destruct (Nat.eqb_spec e d)]; repeat match goal with |- context [?x =? ?y] => destruct (Nat.eqb_spec x y) end; congruence. Qed.
Lemma sw_inj c d e e' : sw c d e = sw c d e' <-> e = e'.
Proof. split; [|now intros ->]. intros X. rewrite <- (sw_sw c d e), X. apply sw_sw. Qed.
Definition vmap (v : abs) (p : node -> nat -> nat) : nat -> option (node * nat * bool) :=
  fun b => match fst v b with Some (n, c, u) => Some (n, p n c, u) | None => None end.
Lemma T_swap c d v (Q : unit -> abs -> Prop) E : snd v c <> None -> snd v d <> None ->
  Q tt (vmap v (fun _ => sw c d), fun e => snd v (sw c d e)) -> T (swap c d) v Q E.
Proof.
  intros Hc Hd K s ((G & W) & S1 & S2). rewrite <- S2 in Hc, Hd. rewrite cw_none in Hc, Hd.
  destruct (cts s c) as [k|] eqn:Hk; [|easy]. destruct (cts s d) as [k'|] eqn:Hk'; [|easy].
  assert (Nc : c <> 0) by (intros ->; rewrite (x_cts0 W) in Hk; discriminate). assert (Nd : d <> 0) by (intros ->; rewrite (x_cts0 W) in Hk'; discriminate).
  assert (L := len_dom c W). assert (L' := len_dom d W).
  destruct (@relabel_ok d (G c) (S (length (dom s))) (hnext k) s (x_ch W _ Hk) (x_nd W c)) as (s1 & R1 & I1 & C1 & D1);
    [intros b; now apply mem_alive with (1 := W)|apply W|lia|].
  assert (N1 : forall b, nx s1 b = nx s b). { intros b. unfold nx. rewrite I1. destruct (existsb (Nat.eqb b) (G c)); auto. now destruct (its s b). }
  destruct (@relabel_ok c (G d) (S (length (dom s1))) (hnext k') s1) as (s2 & R2 & I2 & C2 & D2).
  { eapply chain_ext; [|apply (x_ch W _ Hk')]. auto. } { apply W. }
  { intros b J. rewrite I1. apply (mem_alive _ _ W) in J. destruct (existsb (Nat.eqb b) (G c)); auto. now destruct (its s b). }
  { rewrite I1, (x_its0 W). now destruct (existsb (Nat.eqb 0) (G c)). } { rewrite D1. lia. }
  assert (I : forall b, its s2 b = option_map (fun y => setc (sw c d (icont y)) y) (its s b)).
  { intros b. rewrite I2, I1. destruct (its s b) as [y|] eqn:Hy.
    - rewrite (@in_list s G c b y W Hy Nc), (@in_list s G d b y W Hy Nd). cbn [option_map]. unfold sw. destruct (Nat.eqb_spec (icont y) c) as [Ec|Ec], (Nat.eqb_spec (icont y) d) as [Ed|Ed]; cbn; auto.
      + unfold setc. cbn. congruence.
      + destruct y; reflexivity.
    - cbn. destruct (existsb (Nat.eqb b) (G d)), (existsb (Nat.eqb b) (G c)); reflexivity. }
  assert (Z : exists s', swap c d s = Ret tt s' /\ its s' = its s2 /\ dom s' = dom s /\ forall e, cts s' e = cts s (sw c d e)).
  { unfold swap, safe_swap, fuel_of, get_next, set_next, index, store_index, bind, ret. rewrite Hk, R1, C1, Hk', R2. cbn.
    repeat (progress (rewrite ?C2, ?C1, ?Hk, ?Hk', ?upd_eq; cbn)). destruct (Nat.eq_dec c d) as [<-|N].
    - repeat (progress (rewrite ?upd_eq; cbn)). eexists. splits; try reflexivity; [cbn; congruence|]. intros e. cbn. unfold sw, upd. assert (k' = k) as -> by congruence.
      destruct (Nat.eqb_spec e c) as [->|]; auto. rewrite Hk. destruct k; reflexivity.
    - assert (N' : d <> c) by congruence. repeat (progress (rewrite ?upd_eq, ?(upd_neq _ _ N), ?(upd_neq _ _ N'), ?Hk, ?Hk'; cbn)).
      eexists. splits; try reflexivity; [cbn; congruence|]. intros e. cbn. unfold sw, upd.
      destruct (Nat.eqb_spec e d) as [->|]; [rewrite (proj2 (Nat.eqb_neq _ _) N'), Hk; now destruct k|]. destruct (Nat.eqb_spec e c) as [->|]; auto. rewrite Hk'. now destruct k'. }
  destruct Z as (s' & R & Is & Ds & Cs). unfold wp. rewrite R. eexists. split; [exact K|].
  assert (Ns : forall b, nx s' b = nx s b). { intros b. unfold nx. rewrite Is, I. now destruct (its s b). }
  split; [|split].
  - exists (fun e => G (sw c d e)). split.
    + intros e ke He. rewrite Cs in He. eapply chain_ext; [|apply (x_ch W _ He)]. auto.
    + intros e. apply W.
    + intros e b. rewrite (x_mem W), Is, I. assert (S0 : sw c d 0 = 0). { unfold sw. destruct (Nat.eqb_spec 0 c); [congruence|]. destruct (Nat.eqb_spec 0 d); congruence. }
      split; intros (A & B & y & Hy & Ey); splits; auto.
      * intros ->. now apply A.
      * rewrite Hy. cbn. eexists. split; [reflexivity|]. cbn. now rewrite Ey, sw_sw.
      * intros X. apply A. rewrite <- S0 in X. now apply sw_inj in X.
      * destruct (its s b) as [y0|]; [|easy]. injection Hy as <-. cbn in Ey. exists y0. split; auto. now rewrite <- Ey, sw_sw.
    + intros b y. rewrite Is, I. destruct (its s b) as [y0|] eqn:Hy; [|easy]. intros [= <-]. cbn. rewrite Cs, sw_sw. destruct (x_own W _ Hy) as [X|X]; auto. left.
      rewrite X. unfold sw. destruct (Nat.eqb_spec 0 c); [congruence|]. destruct (Nat.eqb_spec 0 d); congruence.
    + rewrite Is, I, (x_its0 W). reflexivity.
    + rewrite Cs. unfold sw. destruct (Nat.eqb_spec 0 c); [congruence|]. destruct (Nat.eqb_spec 0 d); [congruence|]. apply W.
    + intros b. rewrite Is, I, Ds. intros X. apply (x_dom W). destruct (its s b); easy.
  - intros b. cbn. unfold vmap. rewrite <- S1. unfold vw. rewrite Is, I. destruct (its s b); reflexivity.
  - intros e. cbn. rewrite <- S2. unfold cw. now rewrite Cs.
Qed.
Lemma T_destroy_index c v h l (Q : unit -> abs -> Prop) E : snd v c = Some (h, l) ->
  Q tt (vmap v (fun _ e => if e =? c then 0 else e), upd (snd v) c None) -> T (destroy_index c) v Q E.
Proof.
  intros Hc K. unfold destroy_index. apply T_bind. eapply T_set_elts; eauto. intros s ((G & W) & S1 & S2).
  assert (Hk := S2 c). cbn in Hk. rewrite upd_eq in Hk. apply cts_alive in Hk as (k & Hk & _ & _).
  assert (Nc : c <> 0) by (intros ->; rewrite (x_cts0 W) in Hk; discriminate). assert (L := len_dom c W).
  destruct (@relabel_ok 0 (G c) (S (length (dom s))) (hnext k) s (x_ch W _ Hk) (x_nd W c)) as (s1 & R1 & I1 & C1 & D1);
    [intros b; now apply mem_alive with (1 := W)|apply W|lia|].
  unfold wp, safe_destroy, fuel_of, set_next, index, store_index, bind. rewrite Hk, R1, C1, Hk, C1, Hk. eexists. split; [exact K|].
  assert (I : forall b, its s1 b = option_map (fun y => setc (if icont y =? c then 0 else icont y) y) (its s b)).
  { intros b. rewrite I1. destruct (its s b) as [y|] eqn:Hy.
    - rewrite (@in_list s G c b y W Hy Nc). cbn [option_map]. destruct (icont y =? c); cbn; auto. now destruct y.
    - now destruct (existsb (Nat.eqb b) (G c)). }
  split; [|split].
  - exists (upd G c []). split; cbn.
    + intros e ke He. unfold upd in *. destruct (Nat.eqb_spec e c); [discriminate|]. eapply chain_ext; [|apply (x_ch W _ He)].
      intros b _. unfold nx. cbn. rewrite I. now destruct (its s b).
    + intros e. unfold upd. destruct (e =? c); [constructor|apply W].
    + intros e b. rewrite I. unfold upd. destruct (Nat.eqb_spec e c) as [->|N].
      * split; [easy|]. intros (_ & _ & y & Hy & Ey). destruct (its s b) as [y0|]; [|easy]. injection Hy as <-. cbn in Ey. destruct (Nat.eqb_spec (icont y0) c); congruence.
      * rewrite (x_mem W). split; intros (A & B & y & Hy & Ey); splits; auto.
        -- rewrite Hy. cbn. eexists. split; [reflexivity|]. cbn. rewrite Ey. now apply Nat.eqb_neq in N as ->.
        -- destruct (its s b) as [y0|]; [|easy]. injection Hy as <-. cbn in Ey. exists y0. split; auto. destruct (Nat.eqb_spec (icont y0) c); congruence.
    + intros b y. rewrite I. destruct (its s b) as [y0|] eqn:Hy; [|easy]. intros [= <-]. cbn. destruct (Nat.eqb_spec (icont y0) c) as [|N]; auto.
      rewrite !upd_neq; auto. apply (x_own W _ Hy).
    + rewrite I, (x_its0 W). reflexivity.
    + unfold upd. destruct (0 =? c); auto. apply W.
    + intros b. rewrite I, D1. intros X. apply (x_dom W). destruct (its s b); easy.
  - intros b. cbn. unfold vmap. cbn in S1. rewrite <- S1. unfold vw. cbn. rewrite I. destruct (its s b); reflexivity.
  - intros e. cbn. unfold cw. cbn. unfold upd. destruct (Nat.eqb_spec e c); auto. specialize (S2 e). cbn in S2. rewrite upd_neq in S2; auto.
Qed.
Lemma T_new_index c h v (Q : unit -> abs -> Prop) E : c <> 0 -> snd v c = None -> Q tt (cset v c (h, [])) -> T (new_index c h) v Q E.
Proof.
  intros N Hc K s ((G & W) & S1 & S2). rewrite <- S2, cw_none in Hc. unfold wp, new_index. rewrite Hc. apply Nat.eqb_neq in N as Nb. rewrite Nb.
  eexists. split; [exact K|]. split; [|split].
  - assert (Gc : G c = []). { destruct (G c) as [|b l] eqn:Eg; auto. assert (J : In b (G c)) by (rewrite Eg; now left).
      apply (x_mem W) in J as (_ & _ & y & Hy & Ey). destruct (x_own W _ Hy); congruence. }
    exists G. split; cbn; try apply W.
    + intros e k He. unfold upd in He. destruct (Nat.eqb_spec e c) as [->|]; [|apply (x_ch W _ He)]. injection He as <-. rewrite Gc. reflexivity.
    + intros b y Hy. destruct (x_own W _ Hy) as [X|X]; auto. right. unfold upd. destruct (icont y =? c); auto. easy.
    + rewrite upd_neq; auto. apply W.
  - exact S1.
  - intros e. cbn. unfold cw, upd. cbn. destruct (e =? c); auto. apply S2.
Qed.

(** ** places in a list *)
Lemma place_nth n l : In n l -> nth_error l (place n l) = Some n.
Proof.
  induction l as [|x l IH]; intros J; [easy|]. cbn. destruct (Nat.eqb_spec x n) as [->|N]; auto. cbn. apply IH. now destruct J.
Qed.
Lemma place_lt n l : In n l -> place n l < length l.
Proof. intros J. apply nth_error_Some. now rewrite (place_nth _ _ J). Qed.
Lemma nth_place l : NoDup l -> forall i n, nth_error l i = Some n -> place n l = i.
Proof.
  intros ND i n H. apply (proj1 (NoDup_nth_error l) ND).
  - apply place_lt. eapply nth_error_In; eauto.
  - rewrite H. apply place_nth. eapply nth_error_In; eauto.
Qed.
Lemma place_end h l : NoDup (l ++ [h]) -> place h (l ++ [h]) = length l.
Proof. intros ND. apply nth_place; auto. rewrite nth_error_app2, Nat.sub_diag; auto. Qed.
Lemma place_begin h l : place (hd h l) (l ++ [h]) = 0.
Proof. destruct l; cbn; now rewrite Nat.eqb_refl. Qed.
Lemma after_place n h l : In n l -> after n l h = nth_error (l ++ [h]) (S (place n (l ++ [h]))).
Proof.
  induction l as [|x l IH]; intros J; [easy|]. cbn [after app place]. destruct (Nat.eqb_spec x n) as [->|N].
  - destruct l; reflexivity.
  - rewrite IH; [reflexivity|now destruct J].
Qed.
Lemma before_place n l : forall p, place n l = S p -> In n l -> before n l = nth_error l p.
Proof.
  induction l as [|x l IH]; intros p E J; [easy|]. cbn in E. destruct (Nat.eqb_spec x n) as [->|N]; [discriminate|]. injection E as E.
  destruct J as [|J]; [easy|]. destruct l as [|y l]; [easy|]. cbn [before]. destruct (Nat.eqb_spec y n) as [->|Ny].
  - cbn in E. rewrite Nat.eqb_refl in E. subst p. reflexivity.
  - destruct p as [|p]; [cbn in E; apply Nat.eqb_neq in Ny; rewrite Ny in E; discriminate|]. exact (IH _ E J).
Qed.
Lemma place_inj n m l : In n l -> In m l -> place n l = place m l -> n = m.
Proof. intros Jn Jm E. apply place_nth in Jn, Jm. congruence. Qed.

(** ** the operations of iterators *)
Section Its.
Variable local : list nat -> nat.
(** a local iterator is not where another one is *)
Hypothesis local_ok : forall l, ~ In (local l) (0 :: l).
Definition makes (m : SM unit) (v : abs) t x : Prop := forall (Q : unit -> abs -> Prop) E, Q tt (vset v t x) -> T m v Q E.
Lemma T_scoped {A} (mk : nat -> SM unit) (m : nat -> SM A) x v (Q : A -> abs -> Prop) (E : abs -> Prop) :
  (forall t, t <> 0 -> fst v t = None -> makes (mk t) v t x) ->
  (forall t, t <> 0 -> fst v t = None -> T (m t) (vset v t x) (fun r w => fst w t <> None /\ exists w', eqv (vdel w t) w' /\ Q r w')
     (fun w => fst w t <> None /\ exists w', eqv (vdel w t) w' /\ E w')) ->
  T (scoped local mk m) v Q E.
Proof.
  intros H1 H2 s S. assert (S' := S). destruct S' as ((G & W) & S1 & S2). set (t := local (dom s)).
  assert (N : ~ In t (0 :: dom s)) by apply local_ok. assert (N0 : t <> 0) by (intros X; apply N; now left).
  assert (Nt : fst v t = None). { rewrite <- S1. apply vw_none. destruct (its s t) eqn:X; auto. destruct N. right. apply (x_dom W). congruence. }
  enough (X : T (mk t ;;; r <- try_catch (m t) (destroy t ;;; throw) ;; destroy t ;;; ret r) v Q E) by exact (X s S).
  clearbody t.
  apply T_bind. apply (H1 t N0 Nt). apply T_bind, T_try. eapply T_conseq; [apply (H2 t N0 Nt)| |].
  - cbn. intros r w (At & w' & Eq & K). destruct (fst w t) as [((n, c), u)|] eqn:F; [|easy]. apply T_bind. eapply T_destroy; eauto. apply T_ext, T_ret. eauto.
  - cbn. intros w (At & w' & Eq & K). destruct (fst w t) as [((n, c), u)|] eqn:F; [|easy]. apply T_bind. eapply T_destroy; eauto. apply T_ext, T_throw. eauto.
Qed.
Lemma makes_make n c v t : t <> 0 -> fst v t = None -> c = 0 \/ snd v c <> None -> makes (make t n c) v t (n, c, false).
Proof. intros. intros Q E K. now apply T_make. Qed.
Lemma makes_end c v h l t : t <> 0 -> fst v t = None -> snd v c = Some (h, l) -> makes (end_ c t) v t (h, c, false).
Proof. intros N Nt H Q E K. unfold end_. apply T_bind. eapply T_index; eauto. intros k <- <-. apply T_make; auto. right. congruence. Qed.
Lemma makes_begin c v h l t : t <> 0 -> fst v t = None -> snd v c = Some (h, l) -> makes (begin_ c t) v t (hd h l, c, false).
Proof. intros N Nt H Q E K. unfold begin_. apply T_bind. eapply T_index; eauto. intros k <- <-. apply T_make; auto. right. congruence. Qed.
Lemma makes_copy b v n c u t : t <> 0 -> fst v t = None -> fst v b = Some (n, c, u) -> c = 0 \/ snd v c <> None -> makes (copy t b) v t (n, c, u).
Proof. intros N Nt H Hc Q E K. eapply T_copy; eauto. Qed.

Lemma T_check (m : SM bool) v (Q : unit -> abs -> Prop) E : T m v (fun b w => if b : bool then Q tt w else E w) E -> T (check m) v Q E.
Proof. intros H. unfold check. apply T_bind. eapply T_conseq; [exact H| |auto]. cbn. intros [] w K; [now apply T_ret|now apply T_throw]. Qed.
Definition ok1 (x : node * nat * bool) : bool := negb (snd (fst x) =? 0) || snd x.
Definition ok2 (x y : node * nat * bool) : bool :=
  ((negb (snd (fst x) =? 0) && negb (snd (fst y) =? 0) && (snd (fst x) =? snd (fst y))) || snd x || snd y)%bool.
Lemma T_valid a v x (Q : bool -> abs -> Prop) E : fst v a = Some x -> Q (ok1 x) v -> T (check_valid_iterator a) v Q E.
Proof. destruct x as ((n, c), u). intros H K. apply T_bind. eapply T_load; eauto. intros x <- <- <-. now apply T_ret. Qed.
Lemma T_owner a b v x y (Q : bool -> abs -> Prop) E : fst v a = Some x -> fst v b = Some y -> Q (ok2 x y) v -> T (check_same_owner a b) v Q E.
Proof.
  destruct x as ((n, c), u), y as ((m, c'), u'). intros H H' K. apply T_bind. eapply T_load; eauto. intros x <- <- <-. apply T_bind. eapply T_load; eauto.
  intros y <- <- <-. now apply T_ret.
Qed.
Lemma T_equal a b v x y (Q : bool -> abs -> Prop) (E : abs -> Prop) : fst v a = Some x -> fst v b = Some y ->
  (if (ok1 x && ok1 y && ok2 x y)%bool then Q (fst (fst x) =? fst (fst y)) v else E v) -> T (equal a b) v Q E.
Proof.
  intros H H' K. unfold equal. apply T_bind, T_check. eapply T_valid; eauto. destruct (ok1 x); [|exact K].
  apply T_bind, T_check. eapply T_valid; eauto. destruct (ok1 y); [|exact K].
  apply T_bind, T_check. eapply T_owner; eauto. destruct (ok2 x y); [|exact K].
  destruct x as ((n, c), u), y as ((m, c'), u'). apply T_bind. eapply T_load; eauto. intros x <- <- <-. apply T_bind. eapply T_load; eauto.
  intros y <- <- <-. now apply T_ret.
Qed.
Lemma T_equal_in a b v n m c (Q : bool -> abs -> Prop) E : fst v a = Some (n, c, false) -> fst v b = Some (m, c, false) -> c <> 0 ->
  Q (n =? m) v -> T (equal a b) v Q E.
Proof.
  intros H H' N K. eapply T_equal; eauto. unfold ok1, ok2. cbn. apply Nat.eqb_neq in N. now rewrite N, Nat.eqb_refl.
Qed.
Lemma eqv_back v t x : fst v t = None -> eqv (vdel (vset v t x) t) v.
Proof. intros H. split; intros b; auto. cbn. unfold upd. destruct (Nat.eqb_spec b t) as [->|]; auto. Qed.

(** ** iterators which change their container *)
Definition moved (v : abs) (p : node -> nat -> nat) : abs := (vmap v p, snd v).
Definition out_of (c d : nat) (p : node -> bool) (n : node) (e : nat) : nat := if ((e =? c) && p n)%bool then d else e.
Ltac cases := repeat (try congruence; match goal with
  | |- context [match ?x with Some _ => _ | None => _ end] => destruct x as [((?, ?), ?)|] eqn:?
  | |- context [?x =? ?y] => destruct (Nat.eqb_spec x y); subst end; cbn [andb negb]); try congruence; auto.
Lemma sel_equivalent t m c : c <> 0 -> forall s n b u, vw s b = Some (n, c, u) -> vw s t = Some (m, c, false) ->
  equivalent t b s = Ret (if b =? t then false else n =? m) s.
Proof.
  intros N s n b u Hb Ht. unfold equivalent. destruct (b =? t); [reflexivity|]. apply its_alive in Hb as (x & Hx & [= Ex1 Ex2 _]), Ht as (y & Hy & [= Ey1 Ey2 _]).
  rewrite (equal_eq _ _ _ Hx Hy), <- ?Ex1, <- ?Ey1 by congruence. reflexivity.
Qed.
Lemma T_detach_eq t m c h l v (Q : unit -> abs -> Prop) E : fst v t = Some (m, c, false) -> c <> 0 -> snd v c = Some (h, l) ->
  Q tt (vset (moved v (out_of c 0 (fun n => n =? m))) t (m, 0, false)) -> T (detach_equivalent_iterators t) v Q E.
Proof.
  intros Ht N Hc K. apply T_ext. apply T_bind. eapply T_load; eauto. intros x _ Ex _. unfold is_valid. apply Nat.eqb_neq in N as Nb. rewrite Ex, Nb. cbn [negb].
  apply T_bind. eapply T_sweep with (P := fun n b => if b =? t then false else n =? m) (t := t) (m := m); eauto.
  - now rewrite Nat.eqb_refl.
  - now apply sel_equivalent.
  - eapply T_detach with (n := m) (c := c) (u := false). { cbn. rewrite Ht, !Nat.eqb_refl. reflexivity. }
    eexists. split; [|exact K]. split; intros b; auto. cbn. unfold upd, vmap, out_of. cases.
Qed.
Lemma T_detach_its c n h l v (Q : unit -> abs -> Prop) E : c <> 0 -> snd v c = Some (h, l) -> Q tt (moved v (out_of c 0 (fun m => m =? n))) -> T (detach_iterators local c n) v Q E.
Proof.
  intros N Hc K. apply T_scoped with (x := (n, c, false)). { intros t Nt Ft. apply makes_make; auto. right. congruence. }
  intros t Nt Ft. eapply T_detach_eq with (m := n) (c := c); eauto. { cbn. now rewrite upd_eq. }
  split; [cbn; now rewrite upd_eq|]. eexists. split; [|exact K]. split; intros b; auto. cbn. unfold upd, vmap, out_of. cbn. unfold upd. cases.
Qed.
Lemma T_transfer_its c d n h l v (same : bool) (Q : unit -> abs -> Prop) E : c <> 0 -> c <> d -> snd v c = Some (h, l) -> snd v d <> None ->
  Q tt (moved v (out_of c (if same then d else 0) (fun m => m =? n))) -> T (transfer_iterators local c same d n) v Q E.
Proof.
  intros N Ncd Hc Hd K. apply T_scoped with (x := (n, c, false)). { intros t Nt Ft. apply makes_make; auto. right. congruence. }
  intros t Nt Ft. unfold transfer_equivalent_iterators. destruct same.
  - apply T_scoped with (x := (n, c, false)). { intros t' Nt' Ft'. eapply makes_copy; eauto. { cbn. now rewrite upd_eq. } right. cbn. congruence. }
    intros t' Nt' Ft'. assert (Ntt : t' <> t). { intros ->. cbn in Ft'. rewrite upd_eq in Ft'. discriminate. } apply T_bind. eapply T_load. { cbn. rewrite upd_eq. reflexivity. } intros x _ Ex _.
    unfold is_valid. apply Nat.eqb_neq in N as Nb. rewrite Ex, Nb. cbn [negb]. destruct (snd v d) as [(hd', ld)|] eqn:Ed; [|easy].
    apply T_bind. apply T_scoped with (x := (hd', d, false)). { intros e Ne Fe. eapply makes_end; eauto. }
    intros e Ne Fe. apply T_bind. eapply T_load. { cbn. rewrite upd_eq. reflexivity. } intros y _ Ey _. apply T_ret. split; [cbn; now rewrite upd_eq|].
    exists (vset (vset v t (n, c, false)) t' (n, c, false)). split; [now apply eqv_back|]. rewrite Ey.
    eapply T_sweep with (P := fun m b => if b =? t' then false else m =? n) (t := t') (m := n); eauto.
    + right. cbn. congruence.
    + cbn. now rewrite upd_eq.
    + now rewrite Nat.eqb_refl.
    + now apply sel_equivalent.
    + split. { cbn. rewrite upd_eq. cases. }
      exists (vset (moved v (out_of c d (fun m => m =? n))) t (n, d, false)). split.
      { split; intros b; auto. cbn. cbn in Ft'. rewrite upd_neq in Ft' by auto. unfold upd, vmap, out_of. cases. all: inversion Heqo; reflexivity. }
      split; [cbn; now rewrite upd_eq|]. eexists. split; [|exact K]. split; intros b; auto. cbn. unfold upd, vmap, out_of. cases.
  - eapply T_detach_eq with (m := n) (c := c); eauto. { cbn. now rewrite upd_eq. }
    split; [cbn; now rewrite upd_eq|]. eexists. split; [|exact K]. split; intros b; auto. cbn. unfold upd, vmap, out_of. cbn. unfold upd. cases.
Qed.
Lemma T_detach_deref c h l v (Q : unit -> abs -> Prop) E : c <> 0 -> snd v c = Some (h, l) -> Q tt (moved v (out_of c 0 (fun m => negb (m =? h)))) ->
  T (detach_dereferenceable_iterators local c) v Q E.
Proof.
  intros N Hc K. apply T_scoped with (x := (h, c, false)). { intros t Nt Ft. eapply makes_end; eauto. }
  intros t Nt Ft. eapply T_sweep with (P := fun m b => negb (m =? h)) (t := t) (m := h); eauto.
  - cbn. now rewrite upd_eq.
  - now rewrite Nat.eqb_refl.
  - intros s n b u Hb Ht. apply its_alive in Hb as (x & Hx & [= Ex1 Ex2 _]), Ht as (y & Hy & [= Ey1 Ey2 _]). unfold bind.
    rewrite (equal_eq _ _ _ Hx Hy), <- ?Ex1, <- ?Ey1 by congruence. reflexivity.
  - split. { cbn. rewrite upd_eq. cases. }
    eexists. split; [|exact K]. split; intros b; auto. cbn. unfold upd, vmap, out_of. cases.
Qed.
Lemma T_extract c n h l v (Q : unit -> abs -> Prop) E : c <> 0 -> snd v c = Some (h, l) ->
  Q tt (cset (moved v (out_of c 0 (fun m => m =? n))) c (h, remove Nat.eq_dec n l)) -> T (extract local c n) v Q E.
Proof.
  intros N Hc K. apply T_bind. eapply T_index; eauto. intros k _ ->. apply T_bind. eapply T_set_elts; eauto. eapply T_detach_its; eauto.
  cbn. rewrite upd_eq. reflexivity.
Qed.
Lemma T_clear c h l v (Q : unit -> abs -> Prop) E : c <> 0 -> snd v c = Some (h, l) ->
  Q tt (cset (moved v (out_of c 0 (fun m => negb (m =? h)))) c (h, [])) -> T (clear local c) v Q E.
Proof.
  intros N Hc K. apply T_bind. eapply T_set_elts; eauto. eapply T_detach_deref; [exact N|cbn; rewrite upd_eq; reflexivity|exact K].
Qed.
Lemma T_insert c i n h l v (Q : unit -> abs -> Prop) E : snd v c = Some (h, l) -> Q tt (cset v c (h, insert_at i n l)) -> T (insert c i n) v Q E.
Proof. intros Hc K. apply T_bind. eapply T_index; eauto. intros k _ ->. eapply T_set_elts; eauto. Qed.
Lemma T_transfer c d i same n h l h' l' v (Q : unit -> abs -> Prop) E : c <> 0 -> c <> d -> snd v c = Some (h, l) -> snd v d = Some (h', l') ->
  Q tt (cset (cset (moved v (out_of c (if same : bool then d else 0) (fun m => m =? n))) d (h', insert_at i n l')) c (h, remove Nat.eq_dec n l)) -> T (transfer local c d i same n) v Q E.
Proof.
  intros N Ncd Hc Hd K. apply T_bind. eapply T_insert; eauto. apply T_bind. eapply T_index. { cbn. rewrite upd_neq; eauto. } intros k _ ->.
  apply T_bind. eapply T_set_elts. { cbn. rewrite upd_neq; eauto. }
  eapply T_transfer_its; eauto; cbn; rewrite ?upd_eq; auto. rewrite upd_neq, upd_eq by auto. discriminate.
Qed.

(** what is true of everything reachable *)
Record sound (v : abs) : Prop := mkSound {
  s_it : forall a n c u, fst v a = Some (n, c, u) -> c <> 0 -> u = false /\ exists h l, snd v c = Some (h, l) /\ In n (l ++ [h]);
  s_nd : forall c h l, snd v c = Some (h, l) -> NoDup (l ++ [h]) }.
Variable v : abs.
Hypothesis S : sound v.
Lemma own_ok a n c u : fst v a = Some (n, c, u) -> c = 0 \/ snd v c <> None.
Proof. intros H. destruct (Nat.eq_dec c 0) as [|N]; auto. right. destruct (s_it S _ H N) as (_ & h & l & E & _). congruence. Qed.
Lemma T_other lim lm a n c (Q : bool -> abs -> Prop) E :
  (forall c h l t, t <> 0 -> fst v t = None -> snd v c = Some (h, l) -> makes (lim c t) v t (lm h l : node, c, false)) ->
  fst v a = Some (n, c, false) -> (c = 0 -> Q false v) -> (forall h l, c <> 0 -> snd v c = Some (h, l) -> Q (negb (n =? lm h l)) v) ->
  T (other_than local lim a) v Q E.
Proof.
  intros Hm H K1 K2. unfold other_than. apply T_bind. eapply T_load; eauto. intros x E1 E2 E3. unfold is_valid. rewrite E2, E3.
  destruct (Nat.eqb_spec c 0) as [->|N]; cbn [negb].
  - apply T_bind, T_ret, T_ret. auto.
  - destruct (s_it S _ H N) as (_ & h & l & Hc & _). apply T_bind. apply T_scoped with (x := (lm h l, c, false)); [intros t Nt Ft; now apply Hm|].
    intros t Nt Ft. assert (Na : a <> t) by congruence. apply T_bind. apply (@T_equal_in a t (vset v t (lm h l, c, false)) n (lm h l) c); [cbn; rewrite upd_neq; auto|cbn; now rewrite upd_eq|exact N|].
    apply T_ret. split; [cbn; now rewrite upd_eq|].
    exists v. split; [now apply eqv_back|]. apply T_ret. rewrite orb_false_r. auto.
Qed.
Lemma T_deref_check a n c (Q : bool -> abs -> Prop) E : fst v a = Some (n, c, false) -> (c = 0 -> Q false v) ->
  (forall h l, c <> 0 -> snd v c = Some (h, l) -> Q (negb (n =? h)) v) -> T (other_than local end_ a) v Q E.
Proof. intros H K1 K2. eapply T_other with (lm := fun h _ => h); eauto. intros. eapply makes_end; eauto. Qed.
Lemma T_decr_check a n c (Q : bool -> abs -> Prop) E : fst v a = Some (n, c, false) -> (c = 0 -> Q false v) ->
  (forall h l, c <> 0 -> snd v c = Some (h, l) -> Q (negb (n =? hd h l)) v) -> T (other_than local begin_ a) v Q E.
Proof. intros H K1 K2. eapply T_other with (lm := fun h l => hd h l); eauto. intros. eapply makes_begin; eauto. Qed.
Lemma T_dereference a n c (Q : node -> abs -> Prop) (E : abs -> Prop) : fst v a = Some (n, c, false) -> (c = 0 -> E v) ->
  (forall h l, c <> 0 -> snd v c = Some (h, l) -> if n =? h then E v else In n l -> Q n v) -> T (dereference local a) v Q E.
Proof.
  intros H K1 K2. unfold dereference. apply T_bind, T_check. eapply T_valid; eauto. unfold ok1. cbn. destruct (Nat.eqb_spec c 0) as [Z|N]; cbn; auto.
  destruct (s_it S _ H N) as (_ & h & l & Hc & J). specialize (K2 h l N Hc).
  apply T_bind, T_check. eapply T_deref_check; eauto. intros h' l' _ Hc'. assert (h' = h /\ l' = l) as (-> & ->) by (split; congruence). destruct (Nat.eqb_spec n h) as [|Nh]; cbn; auto.
  assert (Jn : In n l). { apply in_app_iff in J as [J|[J|[]]]; auto. now destruct Nh. }
  apply T_bind. eapply T_load; eauto. intros x -> -> _. apply T_bind. eapply T_index; eauto. intros k _ ->.
  assert (existsb (Nat.eqb n) l = true) as ->. { apply existsb_exists. exists n. now rewrite Nat.eqb_refl. }
  apply T_ret. auto.
Qed.
Lemma T_increment a n c (Q : unit -> abs -> Prop) (E : abs -> Prop) : fst v a = Some (n, c, false) -> (c = 0 -> E v) ->
  (forall h l, c <> 0 -> snd v c = Some (h, l) -> if n =? h then E v else forall m, nth_error (l ++ [h]) (Datatypes.S (place n (l ++ [h]))) = Some m -> Q tt (vset v a (m, c, false))) ->
  T (increment local a) v Q E.
Proof.
  intros H K1 K2. unfold increment. apply T_bind, T_check. eapply T_valid; eauto. unfold ok1. cbn. destruct (Nat.eqb_spec c 0) as [Z|N]; cbn; auto.
  destruct (s_it S _ H N) as (_ & h & l & Hc & J). specialize (K2 h l N Hc).
  apply T_bind, T_check. eapply T_deref_check; eauto. intros h' l' _ Hc'. assert (h' = h /\ l' = l) as (-> & ->) by (split; congruence). destruct (Nat.eqb_spec n h) as [|Nh]; cbn; auto.
  assert (Jn : In n l). { apply in_app_iff in J as [J|[J|[]]]; auto. now destruct Nh. }
  apply T_bind. eapply T_load; eauto. intros x -> -> _. apply T_bind. eapply T_index; eauto. intros k -> ->. rewrite (after_place _ _ _ Jn).
  assert (L : Datatypes.S (place n (l ++ [h])) < length (l ++ [h])).
  { assert (X := place_lt _ _ J). rewrite app_length in *. cbn in *. assert (Y := place_nth _ _ J). assert (place n (l ++ [h]) <> length l); [|lia].
    intros Z. rewrite Z, nth_error_app2, Nat.sub_diag in Y; auto. cbn in Y. congruence. }
  apply nth_error_Some in L. destruct (nth_error (l ++ [h]) _) as [m|]; [|easy]. apply T_bind. cbn. apply T_ret. eapply T_set_node; eauto.
Qed.
Lemma T_decrement a n c (Q : unit -> abs -> Prop) (E : abs -> Prop) : fst v a = Some (n, c, false) -> (c = 0 -> E v) ->
  (forall h l, c <> 0 -> snd v c = Some (h, l) -> match place n (l ++ [h]) with O => E v | Datatypes.S p => forall m, nth_error (l ++ [h]) p = Some m -> Q tt (vset v a (m, c, false)) end) ->
  T (decrement local a) v Q E.
Proof.
  intros H K1 K2. unfold decrement. apply T_bind, T_check. eapply T_valid; eauto. unfold ok1. cbn. destruct (Nat.eqb_spec c 0) as [Z|N]; cbn; auto.
  destruct (s_it S _ H N) as (_ & h & l & Hc & J). specialize (K2 h l N Hc). assert (X := place_lt _ _ J).
  apply T_bind, T_check. eapply T_decr_check; eauto. intros h' l' _ Hc'. assert (h' = h /\ l' = l) as (-> & ->) by (split; congruence).
  assert (B : In (hd h l) (l ++ [h])) by (destruct l; now left). destruct (Nat.eqb_spec n (hd h l)) as [->|Nh]; cbn.
  - rewrite place_begin in K2. exact K2.
  - destruct (place n (l ++ [h])) as [|p] eqn:Ep. { destruct Nh. eapply place_inj; eauto. now rewrite Ep, place_begin. }
    apply T_bind. eapply T_load; eauto. intros x -> -> _. apply T_bind. eapply T_index; eauto. intros k -> ->. rewrite (before_place _ _ Ep J).
    assert (L : p < length (l ++ [h])) by lia. apply nth_error_Some in L. destruct (nth_error (l ++ [h]) p) as [m|]; [|easy]. apply T_bind. cbn. apply T_ret. eapply T_set_node; eauto.
Qed.
End Its.

Section Its2.
Variable local : list nat -> nat.
Hypothesis local_ok : forall l, ~ In (local l) (0 :: l).
Definition same_own (c c' : nat) : bool := (negb (c =? 0) && negb (c' =? 0) && (c =? c'))%bool.
Lemma T_spot a v n c u h l (Q : Z -> abs -> Prop) E : fst v a = Some (n, c, u) -> snd v c = Some (h, l) -> Q (Z.of_nat (place n (l ++ [h]))) v -> T (spot a) v Q E.
Proof. intros H Hc K. apply T_bind. eapply T_load; eauto. intros x -> -> _. apply T_bind. eapply T_index; eauto. intros k -> ->. now apply T_ret. Qed.
Lemma T_distance a b v n c m c' (Q : Z -> abs -> Prop) (E : abs -> Prop) : fst v a = Some (n, c, false) -> fst v b = Some (m, c', false) ->
  (if same_own c c' then exists h l, snd v c = Some (h, l) /\ Q (Z.of_nat (place m (l ++ [h])) - Z.of_nat (place n (l ++ [h])))%Z v else E v) -> T (distance_to a b) v Q E.
Proof.
  intros Ha Hb K. unfold distance_to. unfold same_own in K. apply T_bind, T_check. eapply T_valid; eauto. unfold ok1. cbn [fst snd]. destruct (c =? 0) eqn:Ec; cbn [negb orb andb] in *; auto.
  apply T_bind, T_check. eapply T_valid; eauto. unfold ok1. cbn [fst snd]. destruct (c' =? 0) eqn:Ec'; cbn [negb orb andb] in *; auto.
  apply T_bind, T_check. eapply T_owner; eauto. unfold ok2. cbn [fst snd]. rewrite Ec, Ec'. destruct (Nat.eqb_spec c c') as [<-|]; cbn [negb orb andb] in *; auto.
  destruct K as (h & l & Hc & K). apply T_bind. eapply T_spot; eauto. apply T_bind. eapply T_spot; eauto. apply T_ret; auto.
Qed.
Lemma T_is_owner a c v n e u (Q : bool -> abs -> Prop) E : fst v a = Some (n, e, u) -> snd v c <> None ->
  Q ((negb (e =? 0) && (e =? c)) || u)%bool v -> T (check_is_owner local a c) v Q E.
Proof.
  intros H Hc K. unfold check_is_owner. apply T_bind. eapply T_load; eauto. intros x _ E2 E3. unfold is_valid. rewrite E2, E3. destruct (Nat.eqb_spec e 0) as [Z|N]; cbn [negb andb] in *.
  - apply T_bind, T_ret, T_ret. exact K.
  - destruct (snd v c) as [(h, l)|] eqn:Hc'; [|easy]. apply T_bind. apply (T_scoped local local_ok) with (x := (h, c, false)). { intros t Nt Ft. eapply makes_end; eauto. }
    intros t Nt Ft. apply T_bind. eapply T_load. { cbn. rewrite upd_eq. reflexivity. } intros y _ Ey _. apply T_ret. split; [cbn; now rewrite upd_eq|].
    exists v. split; [now apply eqv_back|]. apply T_ret. now rewrite Ey.
Qed.
Lemma T_belongs a c v n e u h l (Q : bool -> abs -> Prop) E : fst v a = Some (n, e, u) -> e = 0 \/ snd v e <> None -> snd v c = Some (h, l) ->
  (e = 0 -> Q u v) -> (forall h' l', e <> 0 -> snd v e = Some (h', l') -> Q ((h' =? h) || u)%bool v) -> T (check_belongs_in_some_index local a c) v Q E.
Proof.
  intros H He Hc K1 K2. unfold check_belongs_in_some_index. apply T_bind. eapply T_load; eauto. intros x _ E2 E3. unfold is_valid. rewrite E2, E3. destruct (Nat.eqb_spec e 0) as [Z|N]; cbn [negb].
  - apply T_bind, T_ret, T_ret. auto.
  - destruct He as [|He]; [easy|]. destruct (snd v e) as [(h', l')|] eqn:He'; [|easy]. apply T_bind. apply (T_scoped local local_ok) with (x := (h', e, false)). { intros t Nt Ft. eapply makes_end; eauto. }
    intros t Nt Ft. apply (T_scoped local local_ok) with (x := (h, c, false)). { intros t' Nt' Ft'. eapply makes_end; eauto. }
    intros t' Nt' Ft'. assert (t' <> t). { intros ->. cbn in Ft'. rewrite upd_eq in Ft'. discriminate. }
    apply T_bind. eapply T_load. { cbn. rewrite upd_neq by auto. rewrite upd_eq. reflexivity. } intros y Ey _ _. apply T_bind. eapply T_load. { cbn. rewrite upd_eq. reflexivity. } intros z Ez _ _.
    apply T_ret. split; [cbn; now rewrite upd_eq|]. exists (vset v t (h', e, false)). split; [now apply eqv_back|]. split; [cbn; now rewrite upd_eq|].
    exists v. split; [now apply eqv_back|]. apply T_ret. rewrite Ey, Ez. now apply (K2 h' l').
Qed.
Definition goes (h : node) (l : list node) (n : node) (z : Z) : option node :=
  let p := (Z.of_nat (place n (l ++ [h])) + z)%Z in if (p <? 0)%Z then None else nth_error (l ++ [h]) (Z.to_nat p).
Lemma goes_some h l n z : goes h l n z <> None <-> (0 <= Z.of_nat (place n (l ++ [h])) + z <= Z.of_nat (length l))%Z.
Proof.
  unfold goes. cbv zeta. set (p := (Z.of_nat (place n (l ++ [h])) + z)%Z). destruct (Z.ltb_spec p 0) as [L|L].
  - split; [easy|lia].
  - rewrite nth_error_Some, app_length. cbn [length]. lia.
Qed.
Lemma T_in_bounds a n c h l v z (Q : bool -> abs -> Prop) E : sound v -> fst v a = Some (n, c, false) -> c <> 0 -> snd v c = Some (h, l) ->
  Q (match goes h l n z with Some _ => true | None => false end) v -> T (check_in_bounds local a z) v Q E.
Proof.
  intros S H N Hc K. unfold check_in_bounds. apply T_bind. eapply T_load; eauto. intros x _ E2 E3. unfold is_valid. apply Nat.eqb_neq in N as Nb. rewrite E2, E3, Nb. cbn [negb].
  assert (J : In n (l ++ [h])). { destruct (s_it S _ H N) as (_ & h' & l' & Hc' & J). congruence. }
  assert (Pn := place_lt _ _ J). rewrite app_length in Pn. cbn in Pn. assert (G := goes_some h l n z).
  destruct (Z.ltb_spec 0 z) as [L|L].
  - apply T_bind. apply (T_scoped local local_ok) with (x := (h, c, false)). { intros t Nt Ft. eapply makes_end; eauto. }
    intros t Nt Ft. eapply T_distance. { cbn. rewrite upd_neq; eauto. congruence. } { cbn. rewrite upd_eq. reflexivity. }
    unfold same_own. rewrite Nb, Nat.eqb_refl. cbn. exists h, l. split; auto. split; [now rewrite upd_eq|]. exists v. split; [now apply eqv_back|]. apply T_ret.
    rewrite (place_end _ _ (s_nd S _ Hc)). destruct (goes h l n z) as [m|]; destruct (Z.leb_spec z (Z.of_nat (length l) - Z.of_nat (place n (l ++ [h])))) as [X|X]; auto; exfalso.
    + assert (Y : Some m <> None) by easy. apply G in Y. lia.
    + enough (@None node <> None) by easy. apply G. lia.
  - apply T_bind. apply (T_scoped local local_ok) with (x := (hd h l, c, false)). { intros t Nt Ft. eapply makes_begin; eauto. }
    intros t Nt Ft. eapply T_distance. { cbn. rewrite upd_neq; eauto. congruence. } { cbn. rewrite upd_eq. reflexivity. }
    unfold same_own. rewrite Nb, Nat.eqb_refl. cbn. exists h, l. split; auto. split; [now rewrite upd_eq|]. exists v. split; [now apply eqv_back|]. apply T_ret.
    rewrite place_begin. destruct (goes h l n z) as [m|]; destruct (Z.leb_spec (Z.of_nat 0 - Z.of_nat (place n (l ++ [h]))) z) as [X|X]; auto; exfalso.
    + assert (Y : Some m <> None) by easy. apply G in Y. lia.
    + enough (@None node <> None) by easy. apply G. lia.
Qed.
Lemma T_advance a n c v z (Q : unit -> abs -> Prop) (E : abs -> Prop) : sound v -> fst v a = Some (n, c, false) -> (c = 0 -> E v) ->
  (forall h l, c <> 0 -> snd v c = Some (h, l) -> match goes h l n z with Some m => Q tt (vset v a (m, c, false)) | None => E v end) -> T (advance local a z) v Q E.
Proof.
  intros S H K1 K2. unfold advance. apply T_bind, T_check. eapply T_valid; eauto. unfold ok1. cbn. destruct (Nat.eqb_spec c 0) as [Z|N]; cbn; auto.
  destruct (s_it S _ H N) as (_ & h & l & Hc & J). specialize (K2 h l N Hc). apply T_bind, T_check. eapply T_in_bounds; eauto. unfold goes in *. cbv zeta in *.
  destruct (Z.ltb_spec (Z.of_nat (place n (l ++ [h])) + z) 0) as [L|L]; auto. destruct (nth_error _ _) as [m|] eqn:Em; auto.
  apply T_bind. eapply T_load; eauto. intros x _ -> _. apply T_bind. eapply T_index; eauto. intros k -> ->. apply T_bind. eapply T_spot; eauto.
  destruct (Z.ltb_spec (Z.of_nat (place n (l ++ [h])) + z) 0) as [L'|_]; [lia|]. rewrite Em. apply T_bind, T_ret. eapply T_set_node; eauto.
Qed.
Lemma sound_set v t n c u h l : sound v -> snd v c = Some (h, l) -> In n (l ++ [h]) -> u = false -> sound (vset v t (n, c, u)).
Proof.
  intros S Hc J ->. split.
  - intros b m e u. cbn. unfold upd. destruct (Nat.eqb_spec b t) as [->|]; [|apply (s_it S)]. intros [= <- <- <-] _. split; auto. exists h, l. auto.
  - intros e h' l'. cbn. apply (s_nd S).
Qed.
Lemma T_reaches c h l m b last first : c <> 0 -> first <> last -> first <> b -> In m (l ++ [h]) -> forall fuel v n (Q : bool -> abs -> Prop) E,
  sound v -> snd v c = Some (h, l) -> fst v first = Some (n, c, false) -> fst v last = Some (h, c, false) -> fst v b = Some (m, c, false) -> m <> h ->
  length l <= place n (l ++ [h]) + fuel ->
  (forall n', Q (place n (l ++ [h]) <=? place m (l ++ [h])) (vset v first (n', c, false))) -> T (reaches local fuel first last b) v Q E.
Proof.
  intros N Nl Nf Jm. induction fuel as [|fuel IH]; intros v n Q E S Hc Ff Fl Fb Nm L K.
  all: assert (J : In n (l ++ [h])) by (destruct (s_it S _ Ff N) as (_ & h' & l' & Hc' & J); congruence).
  all: assert (Pe := place_end _ _ (s_nd S _ Hc)).
  all: assert (Pm : place m (l ++ [h]) < length l).
  1, 3: assert (X := place_lt _ _ Jm); rewrite app_length in X; cbn in X; assert (place m (l ++ [h]) <> length l); [|lia];
    rewrite <- Pe; intros Y; apply Nm; eapply place_inj; eauto; apply in_app_iff; right; now left.
  all: cbn [reaches]; apply T_bind; eapply T_equal_in with (c := c); eauto.
  all: assert (Back : eqv v (vset v first (n, c, false))) by (split; intros d; auto; cbn; unfold upd; destruct (Nat.eqb_spec d first) as [->|]; auto).
  all: destruct (Nat.eqb_spec n h) as [->|Nn].
  1, 3: apply T_ext, T_ret; eexists; (split; [exact Back|]); specialize (K h); rewrite Pe in K; destruct (Nat.leb_spec (length l) (place m (l ++ [h]))) as [Y|Y]; [lia|exact K].
  all: apply T_bind; eapply T_equal_in with (c := c); eauto; destruct (Nat.eqb_spec n m) as [->|Nnm].
  1, 3: apply T_ext, T_ret; eexists; (split; [exact Back|]); specialize (K m); rewrite Nat.leb_refl in K; exact K.
  - exfalso. apply Nn. assert (X := place_lt _ _ J). rewrite app_length in X. cbn in X. eapply place_inj; eauto; [apply in_app_iff; right; now left|]. rewrite Pe. lia.
  - apply T_bind. eapply T_increment; eauto; [easy|]. intros h' l' _ Hc'. assert (h' = h /\ l' = l) as (-> & ->) by (split; congruence).
    destruct (Nat.eqb_spec n h) as [|_]; [easy|]. intros n' Hn'. assert (Pn' := nth_place (s_nd S _ Hc) _ Hn').
    eapply T_ext, IH with (n := n'); eauto; cbn; rewrite ?upd_eq, ?upd_neq by auto; auto.
    + eapply sound_set; eauto. eapply nth_error_In; eauto.
    + rewrite Pn'. lia.
    + intros n2. exists (vset v first (n2, c, false)). split; [eqv|]. rewrite Pn'. specialize (K n2).
      assert (Y : place n (l ++ [h]) <> place m (l ++ [h])) by (intros Y; apply Nnm; eapply place_inj; eauto).
      destruct (Nat.leb_spec (place n (l ++ [h])) (place m (l ++ [h]))), (Nat.leb_spec (Datatypes.S (place n (l ++ [h]))) (place m (l ++ [h]))); auto; lia.
Qed.
Lemma T_valid_range a b v n c m c' (Q : bool -> abs -> Prop) E : sound v -> fst v a = Some (n, c, false) -> fst v b = Some (m, c', false) ->
  (same_own c c' = false -> Q false v) -> (forall h l, same_own c c' = true -> snd v c = Some (h, l) -> Q (place n (l ++ [h]) <=? place m (l ++ [h])) v) ->
  T (check_valid_range local a b) v Q E.
Proof.
  intros S Ha Hb K1 K2. unfold check_valid_range. apply T_bind. eapply T_owner; eauto. unfold ok2. cbn. rewrite !orb_false_r. fold (same_own c c').
  destruct (same_own c c') eqn:So; cbn; [|apply T_ret; auto]. assert (c <> 0 /\ c' = c) as (N & ->).
  { unfold same_own in So. destruct (Nat.eqb_spec c 0), (Nat.eqb_spec c c'); cbn in So; rewrite ?andb_false_r in So; try easy. }
  destruct (s_it S _ Ha N) as (_ & h & l & Hc & Jn). assert (Jm : In m (l ++ [h])) by (destruct (s_it S _ Hb N) as (_ & h' & l' & Hc' & J); congruence).
  specialize (K2 h l eq_refl Hc). apply T_bind. eapply T_load; eauto. intros x _ Ex _. unfold is_valid. apply Nat.eqb_neq in N as Nb. rewrite Ex, Nb. cbn [negb].
  apply (T_scoped local local_ok) with (x := (h, c, false)). { intros t Nt Ft. eapply makes_end; eauto. }
  intros last Nt Ft. assert (Na : a <> last) by congruence. assert (Nbl : b <> last) by congruence.
  apply T_bind. eapply T_equal_in with (c := c); eauto. { cbn. rewrite upd_neq; eauto. } { cbn. now rewrite upd_eq. }
  destruct (Nat.eqb_spec m h) as [->|Nm].
  - apply T_ret. split; [cbn; now rewrite upd_eq|]. exists v. split; [now apply eqv_back|]. rewrite (place_end _ _ (s_nd S _ Hc)) in K2.
    assert (X := place_lt _ _ Jn). rewrite app_length in X. cbn in X. destruct (Nat.leb_spec (place n (l ++ [h])) (length l)); [auto|lia].
  - apply (T_scoped local local_ok) with (x := (n, c, false)). { intros t Nt' Ft'. eapply makes_copy; eauto. { cbn. rewrite upd_neq; eauto. } right. cbn. congruence. }
    intros first Nt' Ft'. assert (Nfl : first <> last). { intros ->. cbn in Ft'. rewrite upd_eq in Ft'. discriminate. }
    assert (Ff : fst v first = None). { cbn in Ft'. now rewrite upd_neq in Ft'. } assert (Nfb : first <> b) by congruence.
    apply T_bind. apply T_bind. eapply T_index; eauto. intros k _ ->. apply T_ret.
    eapply T_reaches with (n := n) (m := m) (c := c); eauto.
    + eapply sound_set; eauto. eapply sound_set; eauto. apply in_app_iff. right. now left.
    + cbn. now rewrite upd_eq.
    + cbn. now rewrite upd_neq, upd_eq by auto.
    + cbn. now rewrite !upd_neq by auto.
    + lia.
    + intros n'. split; [cbn; now rewrite upd_eq|]. exists (vset v last (h, c, false)). split. { eqv. }
      split; [cbn; now rewrite upd_eq|]. exists v. split; [now apply eqv_back|]. exact K2.
Qed.
Definition clear_of (n m q : nat) (found : bool) : bool := ((n <=? m) && negb (found || ((n <=? q) && (q <? m))))%bool.
Lemma place_inj2 n q l : In n l -> place n l = place q l -> n = q.
Proof.
  induction l as [|x l IH]; intros J E; [easy|]. cbn in *. destruct (Nat.eqb_spec x n) as [<-|Nn], (Nat.eqb_spec x q) as [<-|Nq]; auto; try discriminate.
  apply IH; [|congruence]. now destruct J.
Qed.
Lemma T_outside kk same c h l m q b p e last first : c <> 0 -> first <> last -> first <> b -> first <> p -> In m (l ++ [h]) ->
  (forall v n (Q : bool -> abs -> Prop) E, sound v -> snd v c = Some (h, l) -> n <> h -> fst v first = Some (n, c, false) -> fst v p = Some (q, e, false) -> snd v = kk ->
     Q (n =? q) v -> T (same first) v Q E) ->
  forall fuel v n found (Q : bool -> abs -> Prop) E,
  sound v -> snd v c = Some (h, l) -> fst v first = Some (n, c, false) -> fst v last = Some (h, c, false) -> fst v b = Some (m, c, false) -> fst v p = Some (q, e, false) -> snd v = kk ->
  length l <= place n (l ++ [h]) + fuel ->
  (forall n', Q (clear_of (place n (l ++ [h])) (place m (l ++ [h])) (place q (l ++ [h])) found) (vset v first (n', c, false))) ->
  T (outside local same fuel first last b found) v Q E.
Proof.
  intros N Nl Nf Np Jm Sm. induction fuel as [|fuel IH]; intros v n found Q E S Hc Ff Fl Fb Fp Hk L K.
  all: assert (J : In n (l ++ [h])) by (destruct (s_it S _ Ff N) as (_ & h' & l' & Hc' & J); congruence).
  all: assert (Pe := place_end _ _ (s_nd S _ Hc)).
  all: assert (Pm := place_lt _ _ Jm); rewrite app_length in Pm; cbn in Pm.
  all: assert (Back : eqv v (vset v first (n, c, false))) by (split; intros d; auto; cbn; unfold upd; destruct (Nat.eqb_spec d first) as [->|]; auto).
  all: assert (Exit : n = h \/ n = m -> T (e <- equal first b ;; if negb e then ret false else ret (negb found)) v Q E).
  1, 3: intros Hn; apply T_bind; eapply T_equal_in with (c := c); eauto; specialize (K n); unfold clear_of in K; destruct (Nat.eqb_spec n m) as [->|Nnm]; cbn [negb].
  1, 3: apply T_ext, T_ret; eexists; (split; [exact Back|]); rewrite Nat.leb_refl in K;
    replace ((place m (l ++ [h]) <=? place q (l ++ [h])) && (place q (l ++ [h]) <? place m (l ++ [h])))%bool with false in K
      by (destruct (Nat.leb_spec (place m (l ++ [h])) (place q (l ++ [h]))), (Nat.ltb_spec (place q (l ++ [h])) (place m (l ++ [h]))); auto; lia);
    rewrite orb_false_r in K; exact K.
  1, 2: apply T_ext, T_ret; eexists; (split; [exact Back|]); destruct Hn as [->|]; [|easy]; rewrite Pe in K;
    assert (place m (l ++ [h]) <> length l) by (rewrite <- Pe; intros Y; apply Nnm; symmetry; eapply place_inj; eauto);
    destruct (Nat.leb_spec (length l) (place m (l ++ [h]))); [lia|exact K].
  all: cbn [outside]; apply T_bind; eapply T_equal_in with (c := c); eauto; destruct (Nat.eqb_spec n h) as [->|Nn]; [apply Exit; auto|].
  all: apply T_bind; eapply T_equal_in with (c := c); eauto; destruct (Nat.eqb_spec n m) as [->|Nnm]; [apply Exit; auto|].
  all: apply T_bind; apply Sm with (n := n); auto.
  - exfalso. apply Nn. assert (X := place_lt _ _ J). rewrite app_length in X. cbn in X. eapply place_inj; eauto; [apply in_app_iff; right; now left|]. rewrite Pe. lia.
  - apply T_bind. eapply T_increment; eauto; [easy|]. intros h' l' _ Hc'. assert (h' = h /\ l' = l) as (-> & ->) by (split; congruence).
    destruct (Nat.eqb_spec n h) as [|_]; [easy|]. intros n' Hn'. assert (Pn' := nth_place (s_nd S _ Hc) _ Hn').
    eapply T_ext, IH with (n := n'); eauto; cbn; rewrite ?upd_eq, ?upd_neq by auto; auto.
    + eapply sound_set; eauto. eapply nth_error_In; eauto.
    + rewrite Pn'. lia.
    + intros n2. exists (vset v first (n2, c, false)). split; [eqv|]. rewrite Pn'. specialize (K n2).
      assert (Y : place n (l ++ [h]) <> place m (l ++ [h])) by (intros Y; apply Nnm; eapply place_inj; eauto).
      assert (Z : (n =? q) = (place n (l ++ [h]) =? place q (l ++ [h]))).
      { destruct (Nat.eqb_spec n q) as [->|Nq]; [now rewrite Nat.eqb_refl|]. symmetry. apply Nat.eqb_neq. intros Z. apply Nq. eapply place_inj2; eauto. }
      rewrite Z. revert K. generalize (place n (l ++ [h])) (place m (l ++ [h])) (place q (l ++ [h])) Y. clear. intros i j k Y. unfold clear_of.
      destruct (Nat.eqb_spec i k), (Nat.leb_spec i j), (Nat.leb_spec (Datatypes.S i) j), (Nat.leb_spec i k), (Nat.leb_spec (Datatypes.S i) k), (Nat.ltb_spec k j), found; cbn; auto; lia.
Qed.
Lemma T_outside_range p a b v n c m c' q e (Q : bool -> abs -> Prop) (E : abs -> Prop) :
  sound v -> fst v a = Some (n, c, false) -> fst v b = Some (m, c', false) -> fst v p = Some (q, e, false) ->
  (same_own c c' = false -> Q false v) ->
  (forall h l, same_own c c' = true -> snd v c = Some (h, l) -> same_own c e = true -> Q (clear_of (place n (l ++ [h])) (place m (l ++ [h])) (place q (l ++ [h])) false) v) ->
  (same_own c c' = true -> same_own c e = false -> if n =? m then Q true v else Q false v /\ E v) ->
  T (check_outside_range local p a b) v Q E.
Proof.
  intros S Ha Hb Hp K1 K2 K3. unfold check_outside_range. apply T_bind. eapply T_owner; eauto. unfold ok2. cbn. rewrite !orb_false_r. fold (same_own c c').
  destruct (same_own c c') eqn:So; cbn; [|apply T_ret; auto]. assert (c <> 0 /\ c' = c) as (N & ->).
  { unfold same_own in So. destruct (Nat.eqb_spec c 0), (Nat.eqb_spec c c'); cbn in So; rewrite ?andb_false_r in So; try easy. }
  destruct (s_it S _ Ha N) as (_ & h & l & Hc & Jn). assert (Jm : In m (l ++ [h])) by (destruct (s_it S _ Hb N) as (_ & h' & l' & Hc' & J); congruence).
  specialize (K2 h l eq_refl Hc). specialize (K3 eq_refl). apply T_bind. eapply T_load; eauto. intros x _ Ex _. unfold is_valid. apply Nat.eqb_neq in N as Nb. rewrite Ex, Nb. cbn [negb].
  apply (T_scoped local local_ok) with (x := (h, c, false)). { intros t Nt Ft. eapply makes_end; eauto. }
  intros last Nt Ft. assert (Na : a <> last) by congruence. assert (Nbl : b <> last) by congruence. assert (Npl : p <> last) by congruence.
  apply (T_scoped local local_ok) with (x := (n, c, false)). { intros t Nt' Ft'. eapply makes_copy; eauto. { cbn. rewrite upd_neq; eauto. } right. cbn. congruence. }
  intros first Nt' Ft'. assert (Nfl : first <> last). { intros ->. cbn in Ft'. rewrite upd_eq in Ft'. discriminate. }
  assert (Ff : fst v first = None). { cbn in Ft'. now rewrite upd_neq in Ft'. } assert (Nfb : first <> b) by congruence. assert (Nfp : first <> p) by congruence.
  apply T_bind. apply T_bind. eapply T_index; eauto. intros k _ ->. apply T_ret.
  assert (Vf : fst (vset (vset v last (h, c, false)) first (n, c, false)) first = Some (n, c, false)) by (cbn; now rewrite upd_eq).
  assert (Vl : fst (vset (vset v last (h, c, false)) first (n, c, false)) last = Some (h, c, false)) by (cbn; now rewrite upd_neq, upd_eq by auto).
  assert (Vb : fst (vset (vset v last (h, c, false)) first (n, c, false)) b = Some (m, c, false)) by (cbn; now rewrite !upd_neq by auto).
  assert (Vp : fst (vset (vset v last (h, c, false)) first (n, c, false)) p = Some (q, e, false)) by (cbn; now rewrite !upd_neq by auto).
  destruct (same_own c e) eqn:Se.
  - assert (e = c) as ->. { unfold same_own in Se. destruct (Nat.eqb_spec c e); cbn in Se; rewrite ?andb_false_r in Se; try easy. }
    assert (Jq : In q (l ++ [h])) by (destruct (s_it S _ Hp N) as (_ & h' & l' & Hc' & J); congruence).
    eapply T_outside with (kk := snd v) (n := n) (m := m) (q := q) (c := c) (e := c) (p := p); eauto.
    + intros w n1 Q1 E1 S1 H1 _ F1 P1 _ K. eapply T_equal_in with (c := c); eauto.
    + eapply sound_set; eauto. eapply sound_set; eauto. apply in_app_iff. right. now left.
    + lia.
    + intros n'. split; [cbn; now rewrite upd_eq|]. exists (vset v last (h, c, false)). split. { eqv. }
      split; [cbn; now rewrite upd_eq|]. exists v. split; [now apply eqv_back|]. auto.
  - specialize (K3 eq_refl). destruct (Nat.eqb_spec n m) as [->|Nnm].
    + assert (X : forall f, T (outside local (fun f => equal f p) f first last b false) (vset (vset v last (h, c, false)) first (m, c, false)) (fun r w => r = true /\ w = vset (vset v last (h, c, false)) first (m, c, false)) (fun _ => False)).
      { intros f. destruct f; cbn [outside]; apply T_bind; eapply T_equal_in with (c := c); eauto; (destruct (Nat.eqb_spec m h);
          [|apply T_bind; eapply T_equal_in with (c := c); eauto; rewrite Nat.eqb_refl]; apply T_bind; eapply T_equal_in with (c := c); eauto; rewrite Nat.eqb_refl; now apply T_ret). }
      eapply T_conseq; [apply X| |easy]. intros r w (-> & ->).
      split; [cbn; now rewrite upd_eq|]. exists (vset v last (h, c, false)). split; [now apply eqv_back|].
      split; [cbn; now rewrite upd_eq|]. exists v. split; [now apply eqv_back|]. auto.
    + destruct K3 as (K3 & K4).
      assert (X : forall f, T (outside local (fun f => equal f p) f first last b false) (vset (vset v last (h, c, false)) first (n, c, false)) (fun r w => r = false /\ w = vset (vset v last (h, c, false)) first (n, c, false)) (fun w => w = vset (vset v last (h, c, false)) first (n, c, false))).
      { intros f. destruct f; cbn [outside]; apply T_bind; eapply T_equal_in with (c := c); eauto; (destruct (Nat.eqb_spec n h);
          [apply T_bind; eapply T_equal_in with (c := c); eauto; apply Nat.eqb_neq in Nnm; rewrite Nnm; now apply T_ret|]);
          apply T_bind; eapply T_equal_in with (c := c); eauto; apply Nat.eqb_neq in Nnm; rewrite Nnm; apply T_bind; eapply T_equal; eauto;
          unfold ok2; cbn; rewrite !orb_false_r; fold (same_own c e); rewrite Se, andb_false_r; reflexivity. }
      eapply T_conseq; [apply X| |]; [intros r w (-> & ->)|intros w ->].
      all: split; [cbn; now rewrite upd_eq|]; exists (vset v last (h, c, false)); (split; [now apply eqv_back|]).
      all: split; [cbn; now rewrite upd_eq|]; exists v; (split; [now apply eqv_back|]); auto.
Qed.
Lemma T_outside_range2 p a b v n c m c' q e (Q : bool -> abs -> Prop) (E : abs -> Prop) :
  sound v -> fst v a = Some (n, c, false) -> fst v b = Some (m, c', false) -> fst v p = Some (q, e, false) ->
  (e = 0 -> Q true v) -> (forall l, e <> 0 -> snd v e = Some (q, l) -> Q true v) -> (c = 0 -> Q true v) ->
  (forall he le h l, e <> 0 -> snd v e = Some (he, le) -> q <> he -> c <> 0 -> snd v c = Some (h, l) ->
     if c =? c' then Q (clear_of (place n (l ++ [h])) (place m (l ++ [h])) (place q (l ++ [h])) false) v else E v) ->
  T (check_outside_range2 local p a b) v Q E.
Proof.
  intros S Ha Hb Hp K0 K1 K2 K3. unfold check_outside_range2. apply T_bind. eapply T_load; eauto. intros x _ Ex _. unfold is_valid. rewrite Ex.
  destruct (Nat.eqb_spec e 0) as [->|Ne]; cbn [negb].
  { apply T_bind, T_ret. apply T_bind. eapply T_load; eauto. intros y _ _ _. cbn. apply T_ret. auto. }
  destruct (s_it S _ Hp Ne) as (_ & he & le & He & Jq). apply T_bind.
  apply (T_scoped local local_ok) with (x := (he, e, false)). { intros t Nt Ft. eapply makes_end; eauto. }
  intros t Nt Ft. assert (Npt : p <> t) by congruence. apply T_bind. eapply T_equal_in with (c := e) (n := q) (m := he); auto. { cbn. now rewrite upd_neq by auto. } { cbn. now rewrite upd_eq. }
  apply T_ret. split; [cbn; now rewrite upd_eq|]. exists v. split; [now apply eqv_back|]. clear t Nt Ft Npt.
  apply T_bind. eapply T_load; eauto. intros y _ Ey _. rewrite Ey. destruct (Nat.eqb_spec q he) as [->|Nq]; cbn [negb andb]. { apply T_ret. eauto. }
  destruct (Nat.eqb_spec c 0) as [->|N]; cbn [negb]. { apply T_ret. auto. }
  destruct (s_it S _ Ha N) as (_ & h & l & Hc & Jn). specialize (K3 he le h l Ne He Nq N Hc).
  apply (T_scoped local local_ok) with (x := (h, c, false)). { intros t Nt Ft. eapply makes_end; eauto. }
  intros last Nt Ft. assert (Na : a <> last) by congruence. assert (Nbl : b <> last) by congruence. assert (Npl : p <> last) by congruence.
  apply (T_scoped local local_ok) with (x := (n, c, false)). { intros t Nt' Ft'. eapply makes_copy; eauto. { cbn. rewrite upd_neq; eauto. } right. cbn. congruence. }
  intros first Nt' Ft'. assert (Nfl : first <> last). { intros ->. cbn in Ft'. rewrite upd_eq in Ft'. discriminate. }
  assert (Ff : fst v first = None). { cbn in Ft'. now rewrite upd_neq in Ft'. } assert (Nfb : first <> b) by congruence. assert (Nfp : first <> p) by congruence.
  apply T_bind. apply T_bind. eapply T_index; eauto. intros k _ ->. apply T_ret.
  assert (Vf : fst (vset (vset v last (h, c, false)) first (n, c, false)) first = Some (n, c, false)) by (cbn; now rewrite upd_eq).
  assert (Vl : fst (vset (vset v last (h, c, false)) first (n, c, false)) last = Some (h, c, false)) by (cbn; now rewrite upd_neq, upd_eq by auto).
  assert (Vb : fst (vset (vset v last (h, c, false)) first (n, c, false)) b = Some (m, c', false)) by (cbn; now rewrite !upd_neq by auto).
  assert (Vp : fst (vset (vset v last (h, c, false)) first (n, c, false)) p = Some (q, e, false)) by (cbn; now rewrite !upd_neq by auto).
  destruct (Nat.eqb_spec c c') as [<-|Nc].
  - assert (Jm : In m (l ++ [h])) by (destruct (s_it S _ Hb N) as (_ & h' & l' & Hc' & J); congruence).
    eapply T_outside with (kk := snd v) (n := n) (m := m) (q := q) (c := c) (e := e) (p := p); eauto.
    + intros w n1 Q1 E1 S1 H1 Nn F1 P1 Ek K. apply T_bind. eapply T_dereference; eauto; [easy|]. intros h' l' _ Hc'. assert (h' = h) as -> by congruence.
      destruct (Nat.eqb_spec n1 h) as [|_]; [easy|]. intros _. apply T_bind. eapply T_dereference; eauto; [easy|]. intros h' l2 _ Hc2. rewrite Ek in Hc2. assert (h' = he) as -> by congruence.
      destruct (Nat.eqb_spec q he) as [|_]; [easy|]. intros _. now apply T_ret.
    + eapply sound_set; eauto. eapply sound_set; eauto. apply in_app_iff. right. now left.
    + lia.
    + intros n'. split; [cbn; now rewrite upd_eq|]. exists (vset v last (h, c, false)). split. { eqv. }
      split; [cbn; now rewrite upd_eq|]. exists v. split; [now apply eqv_back|]. auto.
  - assert (X : forall same f, T (outside local same f first last b false) (vset (vset v last (h, c, false)) first (n, c, false)) (fun _ _ => False) (fun w => w = vset (vset v last (h, c, false)) first (n, c, false))).
    { apply Nat.eqb_neq in Nc.
      intros same f. destruct f; cbn [outside]; apply T_bind; eapply T_equal_in with (c := c); eauto; (destruct (Nat.eqb_spec n h); apply T_bind; eapply T_equal; eauto;
          unfold ok2; cbn; rewrite !orb_false_r, Nc, !andb_false_r; reflexivity). }
    eapply T_conseq; [apply X|easy|]. intros w ->.
    split; [cbn; now rewrite upd_eq|]. exists (vset v last (h, c, false)). split; [now apply eqv_back|].
    split; [cbn; now rewrite upd_eq|]. exists v. split; [now apply eqv_back|]. auto.
Qed.
Lemma T_assign a b v n c u m e u' (Q : unit -> abs -> Prop) (E : abs -> Prop) : fst v a = Some (n, c, u) -> fst v b = Some (m, e, u') -> e = 0 \/ snd v e <> None ->
  (if ok1 (m, e, u') then Q tt (vset v a (m, e, u')) else E v) -> T (assign a b) v Q E.
Proof.
  intros Ha Hb He K. apply T_ext. unfold assign. apply T_bind, T_check. eapply T_valid; eauto. destruct (ok1 (m, e, u')); [|exists v; split; [now split|exact K]].
  apply T_bind. eapply T_load; eauto. intros y Ey1 Ey2 Ey3. apply T_bind. eapply T_set_node; eauto. apply T_bind. eapply T_set_unchecked. { cbn. rewrite upd_eq. reflexivity. }
  apply T_bind. eapply T_load. { cbn. rewrite upd_eq. reflexivity. } intros x _ Ex _. rewrite Ex, Ey1, Ey2, Ey3. destruct (Nat.eqb_spec c e) as [->|Nce].
  - apply T_ret. eexists. split; [|exact K]. eqv.
  - apply T_bind. eapply T_detach. { cbn. rewrite upd_eq. reflexivity. } eapply T_attach. { cbn. rewrite upd_eq. reflexivity. } { exact He. }
    eexists. split; [|exact K]. eqv.
Qed.
End Its2.
