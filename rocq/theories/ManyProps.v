(** C56: programs with any number of containers: construction, copies, moves, swap, assignment, destruction. *)
From Verif Require Import Prelude Layer LayerBase Stack View Container ContOk Iops History ContSpec Client Transfer Conv Pair Copy CopyOk Focus Many ManyOk.
From Verif Require ContEx CopyProps.
Set Implicit Arguments.

Section Props.
Variable V : Type.
Variable throws : nat -> bool.
Variable pick : list node -> node.
Variable dv : V.
Variable mlf1 : HashIdx.policy.
(** the allocator returns nodes which are not in use *)
Hypothesis pick_ok : forall l, ~ In (pick l) (null :: l).
Notation obj := (obj V throws pick).
Notation world := (world V throws pick).
Implicit Types (w : world) (x y : obj) (lk nh : list node) (lks : list (list node)).
Notation run := (@wrun V throws pick mlf1).
Notation value_of w := (val dv (wm w)).
Notation memory w := (mem (wm w)).
Notation calls w := (tk (wm w)).
Notation reachw := (@reachw V throws pick mlf1).

(** [x] is as it should be, [lk] being its elements *)
Record osane w x lk : Prop := mkOsane {
  n_seq : exists ls, oseq x = Some ls /\ length ls = length (oc x) /\ Forall (fun l => NoDup l /\ Permutation l lk) ls /\
    Forall2 (fun c l => legal c (value_of w) l) (oc x) ls;
  n_count : @count V throws pick (oh x) (oc x) (os x) = length lk;
  n_live : forall z, In z lk -> live (wm w) z }.
(** every node in the memory is the header of one container, an element of one container, or owned by a node handle *)
Record wsane w lks nh : Prop := mkWsane {
  n_all : Forall2 (osane w) (objs w) lks;
  n_dist : NoDup (null :: map (@oh _ _ _) (objs w) ++ concat lks ++ nh);
  n_mem : Permutation (map fst (memory w)) (map (@oh _ _ _) (objs w) ++ concat lks ++ nh);
  n_nh : forall z, In z nh -> live (wm w) z }.

Lemma nodes_split (es : list (obj * list node)) : Permutation (nodes es) (map (@oh _ _ _) (map fst es) ++ concat (map snd es)).
Proof. induction es as [|e es IH]; [reflexivity|]. cbn [nodes flat_map map concat]. fold (nodes es). rewrite IH. perm. Qed.
Theorem C56_consistent w lks nh : reachw w lks nh -> wsane w lks nh.
Proof.
  intros R. destruct (@reachw_ok V throws pick dv mlf1 pick_ok w lks nh R) as (es & (E & I) & El & Lv).
  assert (P : Permutation (map fst (memory w)) (map (@oh _ _ _) (objs w) ++ concat lks ++ nh)).
  { rewrite (v_mem I), nodes_split, E, El. perm. }
  split; auto.
  - rewrite <- E, <- El. assert (F := v_fine I). clear - F. induction F as [|e es (S1 & Em & a & out & G) F IH]; cbn; constructor; auto. unfold omem in Em.
    split.
    + exists (els _ a). split; [exact (good_views throws pick _ G)|]. split; [apply spec_len|]. split.
      * eapply Forall_impl; [|apply (i_perm (g_inv G))]. intros l Pl. split; auto. eapply NoDup_perm; [symmetry; exact Pl|apply (Layer.i_nd (g_inv G))].
      * assert (A := g_ok G). rewrite Em in A. apply to_legal in A; [exact A|apply S1].
    + exact (g_cnt G).
    + intros z J. rewrite <- Em. now apply (i_live (g_inv G)).
  - eapply NoDup_perm; [|apply I]. now constructor.
Qed.
(** nothing is ever undefined *)
Theorem C56_defined w lks nh o : reachw w lks nh -> wallowed w lks nh o -> run o w <> UB.
Proof.
  intros R A X. assert (Y := @wrun_ok V throws pick dv mlf1 pick_ok w lks nh o (@reachw_ok V throws pick dv mlf1 pick_ok w lks nh R) A).
  unfold wp in Y. now rewrite X in Y.
Qed.
(** when all containers have been destroyed and all handles are empty nothing is left *)
Theorem C56_no_leak w : reachw w [] [] -> memory w = [] /\ objs w = [].
Proof.
  intros R. destruct (C56_consistent R) as [F _ P _]. inversion F as [E|]; subst. rewrite <- E in P. split; auto.
  cbn in P. apply Permutation_sym, Permutation_nil in P. now destruct (memory w).
Qed.

Lemma start_at w lks nh k : reachw w lks nh -> k < length lks -> exists es x lk, wok dv w es nh /\ map snd es = lks /\ nth_error es k = Some (x, lk) /\
  nth_error (objs w) k = Some x /\ nth_error lks k = Some lk.
Proof.
  intros R L. destruct (@reachw_ok V throws pick dv mlf1 pick_ok w lks nh R) as (es & W & El & Lv).
  assert (L' : k < length es) by (now rewrite <- El, map_length in L). apply nth_error_Some in L'. destruct (nth_error es k) as [(x, lk)|] eqn:H; [|easy].
  exists es, x, lk. splits; auto.
  - exact (at_obj_ _ W H).
  - now rewrite <- El, nth_error_map, H.
Qed.
Lemma pick_at w lks nh es k x lk : wok dv w es nh -> map snd es = lks -> nth_error (objs w) k = Some x -> nth_error lks k = Some lk ->
  nth_error es k = Some (x, lk).
Proof.
  intros W El Hx Hl. destruct (obj_at _ W Hx) as (lk' & H). rewrite <- El, nth_error_map, H in Hl. cbn in Hl. congruence.
Qed.
Definition as_before w w' : Prop := memory w' = memory w /\ blown throws (calls w) (calls w') /\ forall j, sees w' j = sees w j.
Lemma failed_before w w' es nh : wok dv w es nh -> failed w w' -> as_before w w'.
Proof. intros W (U & B). destruct (unchanged_ok U W) as (_ & Se). destruct U as (M & _). now split. Qed.

(** an operation of one container, or two, leaves the others alone *)
Theorem C56_others w lks nh o : reachw w lks nh -> wallowed w lks nh o ->
  match o, run o w with
  | At k _, (Ret _ w' | Exn w') => forall j, j <> k -> sees w' j = sees w j /\
      forall lk z, nth_error lks j = Some lk -> In z lk -> value_of w' z = value_of w z
  | Between k l _, (Ret _ w' | Exn w') => forall j, j <> k -> j <> l -> sees w' j = sees w j /\
      forall lk z, nth_error lks j = Some lk -> In z lk -> value_of w' z = value_of w z
  | _, _ => True
  end.
Proof.
  intros R Al. destruct (@reachw_ok V throws pick dv mlf1 pick_ok w lks nh R) as (es & W & El & Lv). destruct o as [cs|k|k|k l|k l|k l|k|k q|k l q]; auto.
  - destruct Al as (x & lk & Hx & Hl & Al). assert (H := @pick_at w lks nh es k x lk W El Hx Hl).
    assert (Y := @at_ok V throws pick dv pick_ok w es nh k x lk q W Lv H Al). unfold wp in Y. cbv zeta in Y. cbn [wrun].
    assert (K : forall w', (forall j, j <> k -> sees w' j = sees w j) ->
      (forall j e z, j <> k -> nth_error es j = Some e -> In z (snd e) -> look (memory w') z = look (memory w) z) ->
      forall j, j <> k -> sees w' j = sees w j /\ forall lk z, nth_error lks j = Some lk -> In z lk -> value_of w' z = value_of w z).
    { intros w' A B j Nj. split; auto. intros lk' z Hj J. rewrite <- El, nth_error_map in Hj. destruct (nth_error es j) as [e|] eqn:He; [|easy].
      cbn in Hj. injection Hj as <-. unfold val. now rewrite (B j e z Nj He J). }
    destruct (at_obj k _ w) as [r w'|w'|]; auto.
    + destruct Y as (es' & _ & _ & _ & A & B). now apply K.
    + destruct Y as (es' & _ & _ & _ & A & B). now apply K.
  - destruct Al as (N & x & y & ls & lk & Hx & Hy & Hs & Hl & Al).
    assert (H1 := @pick_at w lks nh es k x ls W El Hx Hs). assert (H2 := @pick_at w lks nh es l y lk W El Hy Hl).
    assert (Y := @between_ok V throws pick dv w es nh k l x y ls lk q W Lv N H1 H2 Al). unfold wp in Y. cbv zeta in Y. cbn [wrun].
    assert (K : forall w', (forall j, j <> k -> j <> l -> sees w' j = sees w j) ->
      (forall j e z, j <> k -> j <> l -> nth_error es j = Some e -> In z (snd e) -> look (memory w') z = look (memory w) z) ->
      forall j, j <> k -> j <> l -> sees w' j = sees w j /\ forall lk z, nth_error lks j = Some lk -> In z lk -> value_of w' z = value_of w z).
    { intros w' A B j Nj Nl. split; auto. intros lk' z Hj J. rewrite <- El, nth_error_map in Hj. destruct (nth_error es j) as [e|] eqn:He; [|easy].
      cbn in Hj. injection Hj as <-. unfold val. now rewrite (B j e z Nj Nl He J). }
    destruct (between k l _ w) as [r w'|w'|]; auto.
    + destruct Y as (x' & y' & es' & _ & _ & Y). destruct (ledger1 _ _ _ _ _ _ _ _ _ _ _) as ((?, ?), ?). destruct Y as (_ & _ & _ & A & B). now apply K.
    + destruct Y as (x' & y' & es' & _ & _ & Y). destruct (ledger1 _ _ _ _ _ _ _ _ _ _ _) as ((?, ?), ?). destruct Y as (_ & _ & _ & A & B). now apply K.
Qed.

(** construction *)
Theorem C56_create w lks nh cs : reachw w lks nh -> Forall (@code_ok V) cs -> cs <> [] ->
  match run (Create cs) w with
  | Ret _ w' => exists h, ~ In h (null :: map fst (memory w)) /\ memory w' = (h, None) :: memory w /\ quiet throws (calls w) (calls w') /\
      sees w' 0 = Some (h, cs, Some (map (fun _ => []) cs), 0) /\ forall j, sees w' (S j) = sees w j
  | Exn w' => as_before w w'
  | UB => False
  end.
Proof.
  intros R C1 C2. destruct (@reachw_ok V throws pick dv mlf1 pick_ok w lks nh R) as (es & W & El & Lv).
  assert (Y := create_ok pick_ok cs W). cbn [wrun]. unfold wp, bind in *. destruct (create cs w) as [u w'|w'|]; auto.
  - destruct Y as (h & C). destruct (made_ok pick_ok W C C1 C2) as (_ & Sn & F). exists h. destruct C as ((N & M) & Q & E). splits; auto.
    + unfold sees. rewrite E. cbn [nth_error option_map]. now rewrite Sn.
    + intros j. unfold sees. rewrite E. cbn [nth_error]. rewrite nth_error_map. destruct W as (<- & _). rewrite nth_error_map.
      destruct (nth_error es j) as [e|] eqn:H; cbn; auto. rewrite Forall_forall in F. rewrite F; auto. eapply nth_error_In; eauto.
  - eapply failed_before; eauto.
Qed.

(** swap and move assignment: the containers are exchanged as a whole, whatever is in them; nothing throws *)
Theorem C56_swap w k l x y : nth_error (objs w) k = Some x -> nth_error (objs w) l = Some y ->
  exists w', run (Swap V k l) w = Ret Nothing w' /\ run (MoveAssign V k l) w = Ret Nothing w' /\ wm w' = wm w /\
    forall j, nth_error (objs w') j = if j =? k then Some y else if j =? l then Some x else nth_error (objs w) j.
Proof.
  intros Hx Hy. cbn [wrun]. unfold move_assign, bind. rewrite (swap_eq _ _ _ Hx Hy). eexists. splits; try reflexivity.
  intros j. cbn [objs]. now apply nth_swap.
Qed.

(** Copy construction.  [f] takes every element to its copy. *)
Theorem C56_copy w lks nh k x lk ls : reachw w lks nh -> nth_error (objs w) k = Some x -> nth_error lks k = Some lk -> oseq x = Some ls ->
  match run (CopyCreate V k) w with
  | Ret _ w' => exists h f,
      sees w' 0 = Some (h, oc x, Some (map (map f) ls), length lk) /\ (forall j, sees w' (S j) = sees w j) /\
      (forall z, In z lk -> value_of w' (f z) = value_of w z) /\
      (forall z, In z (map fst (memory w)) -> look (memory w') z = look (memory w) z) /\
      NoDup (h :: map f lk) /\ (forall z, In z (h :: map f lk) -> ~ In z (map fst (memory w))) /\
      Permutation (map fst (memory w')) (h :: map f lk ++ map fst (memory w)) /\ quiet throws (calls w) (calls w')
  | Exn w' => as_before w w'
  | UB => False
  end.
Proof.
  intros R Hx Hl Sq. destruct (@reachw_ok V throws pick dv mlf1 pick_ok w lks nh R) as (es & W & El & Lv).
  assert (H := @pick_at w lks nh es k x lk W El Hx Hl). assert (Y := copy_create_ok pick_ok _ W H). cbn [wrun]. unfold wp, bind in *.
  destruct (copy_create k w) as [u w'|w'|]; auto; [|eapply failed_before; eauto].
  destruct Y as (d & f & C). exists (oh d), f. splits.
  - unfold sees. rewrite (cl_at C). cbn [option_map]. now rewrite (cl_seq C Sq).
  - apply (cl_sees C).
  - apply (cl_val C).
  - apply (cl_old C).
  - destruct (cl_ok C) as (es' & W' & _). assert (N := v_nd (proj2 W')). rewrite (v_mem (proj2 W')) in N.
    cbn [nodes flat_map fst snd app] in N. apply NoDup_cons_iff in N as (_ & N). rewrite <- app_assoc, app_comm_cons in N. now apply NoDup_app_iff in N as (N & _).
  - intros z [<-|J]; [intros K; apply (cl_h C); now right|]. apply in_map_iff in J as (y & <- & J). now apply (cl_new C).
  - apply (cl_mem C).
  - apply (cl_tk C).
Qed.

(** the indices of a container whose elements have been moved away: function objects are kept, hashed indices have the
    minimal number of buckets and a maximum load factor of 1 *)
Definition emptied (c c' : code V) : Prop :=
  match c, c' with
  | Hashed key eq hash uniq jh n0 pol, c' => c' = Hashed key eq hash uniq jh 0 mlf1
  | c, c' => c' = c
  end.
(** Move construction.  The new container is [x] as a whole, in the new memory; what is left in its place is a container
    just constructed, with the same function objects. *)
Theorem C56_move w lks nh k x : reachw w lks nh -> nth_error (objs w) k = Some x ->
  match run (MoveCreate V k) w with
  | Ret _ w' => exists h cs (y := mkObj throws pick h cs (fresh throws pick h (mem_world V) cs (wm w'))),
      Forall2 emptied (oc x) cs /\ ~ In h (null :: map fst (memory w)) /\ memory w' = (h, None) :: memory w /\ quiet throws (calls w) (calls w') /\
      nth_error (objs w') 0 = Some (sync (wm w') x) /\ sees w' 0 = sees w k /\
      nth_error (objs w') (S k) = Some y /\ sees w' (S k) = Some (h, cs, Some (map (fun _ => []) cs), 0) /\
      (forall j, j <> k -> sees w' (S j) = sees w j) /\ (forall z, In z (map fst (memory w)) -> value_of w' z = value_of w z)
  | Exn w' => as_before w w'
  | UB => False
  end.
Proof.
  intros R Hx. destruct (@reachw_ok V throws pick dv mlf1 pick_ok w lks nh R) as (es & W & El & Lv). destruct (obj_at _ W Hx) as (lk & H).
  assert (Y := move_create_ok mlf1 pick_ok _ W H). cbn [wrun]. unfold wp, bind in *. destruct (move_create mlf1 k w) as [u w'|w'|]; auto; [|eapply failed_before; eauto].
  destruct Y as (y & [(N & M) Q Ob Sx E Sy Se] & _). exists (oh y), (map (bare mlf1) (oc x)).
  assert (Lk : k < length (map (sync (wm w')) (objs w))). { rewrite map_length. apply nth_error_Some. congruence. }
  assert (Ny : nth_error (objs w') (S k) = Some y). { rewrite Ob. cbn [nth_error]. now apply set_nth_at. }
  cbv zeta. rewrite <- E. splits; auto.
  - clear. induction (oc x) as [|c cs IH]; constructor; auto. now destruct c.
  - rewrite Ob. reflexivity.
  - unfold sees. rewrite Ob, Hx. cbn [nth_error option_map]. now rewrite Sx.
  - unfold sees. rewrite Ny. cbn [option_map]. rewrite Sy, map_map. reflexivity.
  - intros z J. unfold val. assert (X := new_look z (conj N M : new_node (wm w) (wm w') (oh y)) J). now rewrite X.
Qed.

(** Copy assignment.  Either it succeeds, container number [k] becomes a copy of number [l] and its old elements are destroyed,
    or nothing happens. *)
Theorem C56_assign w lks nh k l x y lx ly ls : reachw w lks nh -> nth_error (objs w) k = Some x -> nth_error (objs w) l = Some y ->
  nth_error lks k = Some lx -> nth_error lks l = Some ly -> oseq y = Some ls ->
  match run (CopyAssign V k l) w with
  | Ret _ w' => exists h f,
      sees w' k = Some (h, oc y, Some (map (map f) ls), length ly) /\ (forall j, j <> k -> sees w' j = sees w j) /\
      (forall z, In z ly -> value_of w' (f z) = value_of w z) /\
      (forall z, In z (map fst (memory w)) -> ~ In z (oh x :: lx) -> look (memory w') z = look (memory w) z) /\
      NoDup (map f ly) /\ (forall z, In z (h :: map f ly) -> ~ In z (map fst (memory w))) /\
      Permutation (oh x :: lx ++ map fst (memory w')) (h :: map f ly ++ map fst (memory w)) /\ quiet throws (calls w) (calls w')
  | Exn w' => as_before w w'
  | UB => False
  end.
Proof.
  intros R Hx Hy Hlx Hly Sq. destruct (@reachw_ok V throws pick dv mlf1 pick_ok w lks nh R) as (es & W & El & Lv).
  assert (H1 := @pick_at w lks nh es k x lx W El Hx Hlx). assert (H2 := @pick_at w lks nh es l y ly W El Hy Hly).
  assert (Y := copy_assign_ok pick_ok _ _ W H1 H2). cbn [wrun]. unfold wp, bind in *.
  destruct (copy_assign k l w) as [u w'|w'|]; auto; [|eapply failed_before; eauto].
  destruct Y as (h & f & C). exists h, f. splits.
  - apply (as_seq C Sq).
  - apply (as_sees C).
  - apply (as_val C).
  - apply (as_old C).
  - apply (as_inj C).
  - intros z [<-|J]; [intros K; apply (as_h C); now right|]. apply in_map_iff in J as (z' & <- & J). now apply (as_new C).
  - apply (as_mem C).
  - apply (as_tk C).
Qed.

(** Destruction: nothing throws, the header and the elements are freed, and nothing else is changed *)
Theorem C56_destroy w lks nh k x lk : reachw w lks nh -> nth_error (objs w) k = Some x -> nth_error lks k = Some lk ->
  exists w', run (Destroy V k) w = Ret Nothing w' /\ calls w' = calls w /\
    Permutation (map fst (memory w)) (oh x :: lk ++ map fst (memory w')) /\
    (forall z, In z (map fst (memory w')) -> look (memory w') z = look (memory w) z) /\
    forall j, sees w' j = sees w (if j <? k then j else S j).
Proof.
  intros R Hx Hl. destruct (@reachw_ok V throws pick dv mlf1 pick_ok w lks nh R) as (es & W & El & Lv).
  assert (H := @pick_at w lks nh es k x lk W El Hx Hl). destruct (destroy_ok _ W H) as (w' & De & M & T & W' & Se).
  exists w'. cbn [wrun]. unfold bind. rewrite De. splits; auto.
  - rewrite (v_mem (proj2 W')). rewrite remove_map, nodes_sync. rewrite (v_mem (proj2 W)), (nodes_perm (perm_at _ _ H)).
    cbn [nodes flat_map fst snd]. fold (nodes (remove_nth k es)). perm.
  - intros z J. rewrite M in *. apply fst_without_incl in J as (_ & J). now apply look_without.
Qed.
End Props.

(** ** a concrete case: containers with five indices *)
Notation cs5 := CopyProps.cs5.
Notation pick0 := ContEx.next_node.
Section Play.
Variable th : nat -> bool.
Notation world := (world nat th pick0).
Notation run := (@wrun nat th pick0 ContEx.pol1).
Definition ins (k v : nat) : wop nat := At k (Insert (nat * iop nat) v None).
(** operations which are allowed whatever the elements are *)
Definition simple (w : world) (o : wop nat) : Prop :=
  match o with
  | Create cs => cs = cs5
  | CopyCreate _ k | MoveCreate _ k | Destroy _ k => k < length (objs w)
  | At k (Insert _ _ None) => k < length (objs w)
  | Swap _ k l | CopyAssign _ k l | MoveAssign _ k l =>
      match nth_error (objs w) k, nth_error (objs w) l with Some x, Some y => alike x y | _, _ => False end
  | _ => False
  end.
Fixpoint playable (os : list (wop nat)) (w : world) (lks : list (list node)) (nh : list node) : Prop :=
  match os with
  | [] => True
  | o :: os => simple w o /\
     match run o w with
     | Ret r w' => playable os w' (fst (wledger o (Some r) w' lks nh)) (snd (wledger o (Some r) w' lks nh))
     | Exn w' => playable os w' (fst (wledger o None w' lks nh)) (snd (wledger o None w' lks nh))
     | UB => False
     end
  end.
Fixpoint play (os : list (wop nat)) (w : world) (lks : list (list node)) (nh : list node) : world * (list (list node) * list node) :=
  match os with
  | [] => (w, (lks, nh))
  | o :: os =>
     match run o w with
     | Ret r w' => play os w' (fst (wledger o (Some r) w' lks nh)) (snd (wledger o (Some r) w' lks nh))
     | Exn w' => play os w' (fst (wledger o None w' lks nh)) (snd (wledger o None w' lks nh))
     | UB => (w, (lks, nh))
     end
  end.
Lemma cs5_ok : Forall (@code_ok nat) cs5.
Proof. apply (s_codes (s2_a CopyProps.copy_setting)). Qed.
Lemma simple_allowed w lks nh o : reachw ContEx.pol1 w lks nh -> simple w o -> wallowed w lks nh o.
Proof.
  intros R. destruct (@reachw_ok nat th pick0 0 ContEx.pol1 ContEx.next_node_ok w lks nh R) as (es & (E & _) & El & _).
  assert (L : length lks = length (objs w)) by now rewrite <- E, <- El, !map_length.
  assert (K : forall k, k < length (objs w) -> exists x lk, nth_error (objs w) k = Some x /\ nth_error lks k = Some lk).
  { intros k Lk. assert (L1 := Lk). rewrite <- L in L1. apply nth_error_Some in Lk. apply nth_error_Some in L1.
    destruct (nth_error (objs w) k) as [x|]; [|easy]. destruct (nth_error lks k) as [lk|]; [|easy]. eauto. }
  destruct o as [cs|k|k|k l|k l|k l|k|k q|k l q]; cbn [simple wallowed]; rewrite ?L; auto.
  - intros ->. split; [exact cs5_ok|easy].
  - destruct (nth_error (objs w) k) as [x|], (nth_error (objs w) l) as [y|]; try easy. eauto.
  - destruct (nth_error (objs w) k) as [x|], (nth_error (objs w) l) as [y|]; try easy. eauto.
  - destruct (nth_error (objs w) k) as [x|], (nth_error (objs w) l) as [y|]; try easy. eauto.
  - destruct q; try easy. destruct hint; [easy|]. intros Lk. destruct (K k Lk) as (x & lk & Hx & Hl). exists x, lk. splits; auto. exact I.
  - easy.
Qed.
Lemma play_reach os : forall w lks nh, reachw ContEx.pol1 w lks nh -> playable os w lks nh ->
  let q := play os w lks nh in reachw ContEx.pol1 (fst q) (fst (snd q)) (snd (snd q)).
Proof.
  induction os as [|o os IH]; intros w lks nh R P; cbn [play]; auto. destruct P as (A & P). apply (simple_allowed o R) in A.
  destruct (run o w) as [r w'|w'|] eqn:E; [| |easy]; (apply IH; [|exact P]).
  - eapply rw_ret; eauto.
  - eapply rw_exn; eauto.
Qed.
Definition started : world := mkW [] (mkB [] 0).
Definition show (w : world) := (map (fun x => (oh x, oseq x)) (objs w), mem (wm w)).
Definition show_run (o : wop nat) (w : world) := match run o w with Ret _ w' => (0, show w') | Exn w' => (1, show w') | UB => (2, ([], [])) end.
End Play.

(** a container with the values 6 8 5, a copy of it to which 20 is added, and an empty one *)
Definition many_ops : list (wop nat) := [Create cs5; ins 0 6; ins 0 8; ins 0 5; CopyCreate _ 0; ins 0 20; Create cs5].
Definition many_end th := play many_ops (started th) [] [].
Notation never := CopyProps.never.
Definition at60 (n : nat) : bool := n =? 60.
Lemma many_playable th : th = never \/ th = at60 -> playable many_ops (started th) [] [].
Proof. intros [-> | ->]; vm_compute; repeat split; auto; lia. Qed.
Definition none5 : option (list (list node)) := Some [[]; []; []; []; []].
Definition seqs5 (a b c d : node) : option (list (list node)) := Some [[a; b; c; d]; [b; c; a; d]; [a; b; c; d]; [b; c; a; d]; [b; c; a; d]].
Definition first3 : option (list (list node)) := Some [[4; 2; 3]; [2; 3; 4]; [3; 2; 4]; [2; 3; 4]; [2; 3; 4]].
Definition old3 : list (node * option nat) := [(4, Some 5); (3, Some 8); (2, Some 6); (1, None)].
Definition old4 : list (node * option nat) := [(9, Some 20); (8, Some 8); (7, Some 6); (6, Some 5); (5, None)].
Definition new4 : list (node * option nat) := [(15, Some 20); (14, Some 8); (13, Some 6); (12, Some 5); (11, None)].
Definition many_show := ([(10, none5); (5, seqs5 6 7 8 9); (1, first3)], (10, None) :: old4 ++ old3).

(** the state is reachable, whether the sixtieth call throws or not; it has three containers of 0, 4 and 3 elements *)
Example many_reach th : th = never \/ th = at60 ->
  let q := many_end th in reachw ContEx.pol1 (fst q) (fst (snd q)) (snd (snd q)) /\ show (fst q) = many_show /\
    snd q = ([[]; [9; 6; 7; 8]; [4; 3; 2]], []) /\ tk (wm (fst q)) = 52.
Proof.
  intros H q. split; [|destruct H as [-> | ->]; vm_compute; auto].
  apply play_reach; [apply rw_start|now apply many_playable].
Qed.
(** assignment from the second container to the third: the elements of the third are freed *)
Example many_assign : show_run (CopyAssign _ 2 1) (fst (many_end never)) =
  (0, ([(10, none5); (5, seqs5 6 7 8 9); (11, seqs5 12 13 14 15)], new4 ++ (10, None) :: old4)).
Proof. vm_compute. reflexivity. Qed.
(** the same when the sixtieth call throws: nothing happens *)
Example many_assign_throws : show_run (CopyAssign _ 2 1) (fst (many_end at60)) = (1, many_show).
Proof. vm_compute. reflexivity. Qed.
(** assignment to itself makes a copy *)
Example many_assign_self : show_run (CopyAssign _ 1 1) (fst (many_end never)) =
  (0, ([(10, none5); (11, seqs5 12 13 14 15); (1, first3)], new4 ++ (10, None) :: old3)).
Proof. vm_compute. reflexivity. Qed.
(** move construction: an empty container is left behind *)
Example many_move : show_run (MoveCreate _ 1) (fst (many_end never)) =
  (0, ([(5, seqs5 6 7 8 9); (10, none5); (11, none5); (1, first3)], (11, None) :: snd many_show)).
Proof. vm_compute. reflexivity. Qed.
Example many_swap : show_run (Swap _ 2 0) (fst (many_end never)) = (0, ([(1, first3); (5, seqs5 6 7 8 9); (10, none5)], snd many_show)).
Proof. vm_compute. reflexivity. Qed.
Example many_destroy : show_run (Destroy _ 1) (fst (many_end never)) = (0, ([(10, none5); (1, first3)], (10, None) :: old3)).
Proof. vm_compute. reflexivity. Qed.
(** when all are destroyed nothing is left *)
Example many_none : show (fst (play (many_ops ++ [Destroy _ 1; Destroy _ 0; Destroy _ 0]) (started never) [] [])) = ([], []).
Proof. vm_compute. reflexivity. Qed.

Print Assumptions C56_consistent.
Print Assumptions C56_defined.
Print Assumptions C56_no_leak.
Print Assumptions C56_others.
Print Assumptions C56_create.
Print Assumptions C56_swap.
Print Assumptions C56_copy.
Print Assumptions C56_move.
Print Assumptions C56_assign.
Print Assumptions C56_destroy.
