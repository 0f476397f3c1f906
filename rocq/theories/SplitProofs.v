(** Proofs about DirectedGraph::split. *)
From Verif Require Import Prelude StdMap Graph SpecGraph ListLemmas GraphProofs.
From Coq Require Import Permutation Relations.

Definition gsize (g : digraph) : nat := List.length (g_ids g).
Definition arc (g : digraph) (u v : nat) : Prop := In (u, v) (g_edges g).
Definition reach (g : digraph) : nat -> nat -> Prop := clos_refl_trans nat (arc g).

Lemma out_adj_iff g v w : In w (out_adj g v) <-> arc g v w.
Proof.
  unfold out_adj, arc. rewrite in_map_iff. split.
  - intros ([a b] & E & I). apply filter_In in I as [I F]. cbn in *. apply Nat.eqb_eq in F. now subst.
  - intros I. exists (v, w). split; auto. apply filter_In. split; auto. cbn. apply Nat.eqb_refl.
Qed.

Definition valid (g : digraph) (st : list (nat * nat)) : Prop :=
  NoDup (map fst st) /\ forall v, In v (map fst st) -> (v < gsize g)%nat.
Lemma labelled_in v st : labelled v st = true <-> In v (map fst st).
Proof. apply nmem_in. Qed.
Lemma valid_length g st : valid g st -> (List.length st <= gsize g)%nat.
Proof.
  intros [ND B]. rewrite <- (map_length fst). rewrite <- (seq_length (gsize g) 0).
  apply NoDup_incl_length; auto. intros x I. apply in_seq. apply B in I. lia.
Qed.
Lemma valid_room g st v : valid g st -> (v < gsize g)%nat -> ~ In v (map fst st) ->
  (List.length st < gsize g)%nat.
Proof.
  intros [ND B] L N. rewrite <- (map_length fst).
  assert (X : (List.length (v :: map fst st) <= List.length (seq 0 (gsize g)))%nat).
  { apply NoDup_incl_length; [constructor; auto|]. intros x [<-|I]; apply in_seq; [lia|]. apply B in I. lia. }
  rewrite seq_length in X. cbn in X. lia.
Qed.

(** What a call of the search adds to the labels. *)
Definition grown (g : digraph) (c v : nat) (st st' : list (nat * nat)) : Prop :=
  exists new, st' = new ++ st /\ valid g st' /\
    (forall x l, In (x, l) new -> l = c /\ reach g v x) /\
    (forall x w, In x (map fst new) -> arc g x w -> In w (map fst st')).

Lemma dfs_spec g : gwf g -> forall fuel c v st,
  (v < gsize g)%nat -> valid g st -> (gsize g - List.length st < fuel)%nat ->
  exists st', dfs fuel g c v st = Some st' /\ grown g c v st st' /\ In v (map fst st').
Proof.
  intros W. induction fuel as [|f IH]; intros c v st L V F; [lia|].
  cbn [dfs]. destruct (labelled v st) eqn:E.
  { exists st. split; auto. split; [|now apply labelled_in]. exists []. split; [reflexivity|].
    split; [auto|]. split; [intros x l []|intros x w []]. }
  assert (N : ~ In v (map fst st)) by (rewrite <- labelled_in; congruence).
  assert (Vv : valid g ((v, c) :: st)).
  { destruct V as [ND B]. split; cbn; [now constructor|]. intros x [<-|I]; auto. }
  pose proof (valid_room g st v V L N) as Room.
  (* the loop over the out edges *)
  assert (Loop : forall ws s, (forall w, In w ws -> arc g v w) ->
    valid g s -> (S (List.length st) <= List.length s)%nat ->
    exists s', fold_left (fun o w => match o with
                                 | Some s => if labelled w s then Some s else dfs f g c w s
                                 | None => None
                                 end) ws (Some s) = Some s' /\
      grown g c v s s' /\ (forall w, In w ws -> In w (map fst s'))).
  { induction ws as [|w ws IHw]; intros s A Vs Ls.
    - exists s. split; [reflexivity|]. split; [|intros w []]. exists []. split; [reflexivity|].
      split; [auto|]. split; [intros x l []|intros x y []].
    - cbn [fold_left]. destruct (labelled w s) eqn:Ew.
      + destruct (IHw s) as (s' & R & G & D); auto. { intros; apply A; now right. }
        exists s'. split; auto. split; auto. intros y [<-|I]; auto.
        destruct G as (new & -> & _). rewrite map_app, in_app_iff. right. now apply labelled_in.
      + destruct (IH c w s) as (s1 & R1 & G1 & D1); auto.
        { apply (w_edge _ W v w). apply A. now left. }
        { lia. }
        rewrite R1. destruct G1 as (new1 & -> & V1 & Lab1 & Cl1).
        destruct (IHw (new1 ++ s)) as (s' & R & G & D); auto.
        { intros; apply A; now right. }
        { rewrite app_length. lia. }
        exists s'. split; auto. destruct G as (new & -> & V' & Lab & Cl). split.
        * exists (new ++ new1). split; [now rewrite app_assoc|]. split; [auto|]. split.
          -- intros x l I. apply in_app_iff in I as [I|I]; auto. destruct (Lab1 x l I) as [E1 E2].
             split; auto. eapply rt_trans; [apply rt_step, A; now left|exact E2].
          -- intros x y I A'. rewrite map_app, in_app_iff in I. destruct I as [I|I]; [now apply (Cl x)|].
             rewrite map_app, in_app_iff. right. now apply (Cl1 x).
        * intros y [<-|I]; auto. rewrite map_app, in_app_iff. right. auto. }
  destruct (Loop (out_adj g v) ((v, c) :: st)) as (s' & R & G & D); auto.
  { intros w I. now apply out_adj_iff. }
  exists s'. split; auto. destruct G as (new & -> & V' & Lab & Cl). split.
  - exists (new ++ [(v, c)]). split; [now rewrite <- app_assoc|]. split; [auto|]. split.
    + intros x l I. apply in_app_iff in I as [I|[[= <- <-]|[]]]; auto. split; auto. apply rt_refl.
    + intros x w I A. rewrite map_app, in_app_iff in I. destruct I as [I|[<-|[]]]; [now apply (Cl x)|].
      apply D. now apply out_adj_iff.
  - rewrite map_app, in_app_iff. right. now left.
Qed.

(** Lookups. *)
Lemma comp_of_in st v c : NoDup (map fst st) -> (comp_of st v = Some c <-> In (v, c) st).
Proof.
  unfold comp_of. induction st as [|[x l] st IH]; intros ND; cbn.
  - split; [discriminate|tauto].
  - cbn in ND. inversion ND as [|? ? N ND']; subst. destruct (Nat.eqb_spec x v) as [->|Ne].
    + cbn. split; [intros [= ->]; auto|]. intros [[= ->]|I]; auto.
      exfalso. apply N. apply in_map_iff. exists (v, c); auto.
    + rewrite IH by auto. split; auto. intros [[= -> ->]|I]; [contradiction|auto].
Qed.
Lemma comp_of_none st v : comp_of st v = None <-> ~ In v (map fst st).
Proof.
  unfold comp_of. induction st as [|[x l] st IH]; cbn; [tauto|].
  destruct (Nat.eqb_spec x v) as [->|Ne]; cbn.
  - split; [discriminate|]. tauto.
  - rewrite IH. tauto.
Qed.

Record labels (g : digraph) (st : list (nat * nat)) (num : nat) : Prop := {
  l_valid : valid g st;
  l_lt : forall v c, In (v, c) st -> (c < num)%nat;
  l_root : forall c, (c < num)%nat -> exists r, In (r, c) st /\ forall x, In (x, c) st -> reach g r x;
  l_down : forall x w c, In (x, c) st -> arc g x w -> exists c', In (w, c') st /\ (c' <= c)%nat }.

Lemma labels_empty g : labels g [] 0.
Proof. split; [split; [constructor|intros v []]| intros v c [] | intros; lia | intros x w c []]. Qed.

Lemma cc_loop g : gwf g -> forall vs st num, (forall v, In v vs -> (v < gsize g)%nat) -> labels g st num ->
  exists st' num', fold_left (cc_step g) vs (Some (st, num)) = Some (st', num') /\
    labels g st' num' /\ (forall v, In v vs -> In v (map fst st')) /\
    (forall v, In v (map fst st) -> In v (map fst st')).
Proof.
  intros W. induction vs as [|v vs IH]; intros st num B Lb.
  - exists st, num. split; [reflexivity|]. split; [auto|]. split; auto. intros v [].
  - cbn [fold_left cc_step]. destruct (labelled v st) eqn:E.
    + destruct (IH st num) as (st' & num' & R & L' & D & K); auto. { intros; apply B; now right. }
      exists st', num'. split; auto. split; auto. split; auto. intros x [<-|I]; auto.
      apply K. now apply labelled_in.
    + assert (N : ~ In v (map fst st)) by (rewrite <- labelled_in; congruence).
      destruct (dfs_spec g W (S (verticesSize g)) num v st) as (s1 & R1 & G1 & D1).
      { apply B; now left. } { apply (l_valid _ _ _ Lb). } { unfold verticesSize, gsize. lia. }
      rewrite R1. destruct G1 as (new & -> & V1 & Lab & Cl).
      assert (L1 : labels g (new ++ st) (S num)).
      { split.
        - exact V1.
        - intros x c I. apply in_app_iff in I as [I|I].
          + apply Lab in I as [-> _]. lia.
          + apply (l_lt _ _ _ Lb) in I. lia.
        - intros c L. destruct (Nat.eq_dec c num) as [->|Ne].
          + exists v. split.
            * rewrite map_app, in_app_iff in D1. destruct D1 as [D1|D1]; [|contradiction].
              apply in_map_iff in D1 as ([x l] & Ex & I). cbn in Ex; subst x.
              destruct (Lab _ _ I) as [-> _]. apply in_app_iff. now left.
            * intros x I. apply in_app_iff in I as [I|I]; [now apply (Lab x num)|].
              apply (l_lt _ _ _ Lb) in I. lia.
          + destruct (l_root _ _ _ Lb c) as (r & Ir & Rr); [lia|]. exists r. split.
            * apply in_app_iff; now right.
            * intros x I. apply in_app_iff in I as [I|I]; [apply Lab in I as [-> _]; contradiction|auto].
        - intros x w c I A. apply in_app_iff in I as [I|I].
          + destruct (Lab _ _ I) as [-> _].
            assert (Iw : In w (map fst (new ++ st))).
            { apply (Cl x); auto. apply in_map_iff. exists (x, num); auto. }
            apply in_map_iff in Iw as ([y c'] & Ey & I'). cbn in Ey; subst y. exists c'. split; auto.
            apply in_app_iff in I' as [I'|I']; [apply Lab in I' as [-> _]; lia|].
            apply (l_lt _ _ _ Lb) in I'. lia.
          + destruct (l_down _ _ _ Lb _ _ _ I A) as (c' & I' & Le). exists c'. split; auto.
            apply in_app_iff. now right. }
      destruct (IH (new ++ st) (S num)) as (st' & num' & R & L' & D & K); auto.
      { intros; apply B; now right. }
      exists st', num'. split; auto. split; auto. split.
      * intros x [<-|I]; auto.
      * intros x I. apply K. rewrite map_app, in_app_iff. now right.
Qed.

(** The result of connected_components as a function on vertices. *)
Record components (g : digraph) (st : list (nat * nat)) (num : nat) (comp : nat -> nat) : Prop := {
  k_is : forall v c, (v < gsize g)%nat -> (comp_is st v c = true <-> comp v = c);
  k_lt : forall v, (v < gsize g)%nat -> (comp v < num)%nat;
  k_root : forall c, (c < num)%nat -> exists r, (r < gsize g)%nat /\ comp r = c /\
    forall x, (x < gsize g)%nat -> comp x = c -> reach g r x;
  k_down : forall x w, arc g x w -> (comp w <= comp x)%nat }.

Lemma cc_view g : gwf g -> exists st num comp,
  connected_components g = Some (st, num) /\ components g st num comp.
Proof.
  intros W. destruct (cc_loop g W (seq 0 (verticesSize g)) [] 0) as (st & num & R & L & D & _).
  { intros v I. apply in_seq in I. unfold verticesSize in I. unfold gsize. lia. }
  { apply labels_empty. }
  destruct (l_valid _ _ _ L) as [ND B].
  exists st, num, (fun v => match comp_of st v with Some c => c | None => 0 end). split; [exact R|].
  assert (All : forall v, (v < gsize g)%nat -> exists c, comp_of st v = Some c /\ In (v, c) st).
  { intros v Lv. assert (I : In v (map fst st)) by (apply D, in_seq; unfold verticesSize, gsize in *; lia).
    apply in_map_iff in I as ([x c] & E & I). cbn in E; subst x. exists c. split; auto. now apply comp_of_in. }
  split.
  - intros v c Lv. unfold comp_is. destruct (All v Lv) as (c' & -> & _). apply Nat.eqb_eq.
  - intros v Lv. destruct (All v Lv) as (c' & -> & I). now apply (l_lt _ _ _ L) in I.
  - intros c Lc. destruct (l_root _ _ _ L c Lc) as (r & Ir & Rr). exists r.
    assert (Lr : (r < gsize g)%nat) by (apply B; apply in_map_iff; exists (r, c); auto).
    split; auto. split.
    + apply comp_of_in in Ir; auto. now rewrite Ir.
    + intros x Lx E. apply Rr. destruct (All x Lx) as (c' & E' & I). rewrite E' in E. now subst.
  - intros x w A. pose proof (w_edge _ W _ _ A) as (_ & Lx & Lw).
    destruct (All x Lx) as (c & -> & I). destruct (l_down _ _ _ L _ _ _ I A) as (c' & I' & Le).
    apply comp_of_in in I'; auto. now rewrite I'.
Qed.

(** ** The parts *)
Definition in_comp (g : digraph) (comp : nat -> nat) (c : nat) (e : nat * nat) : bool :=
  (comp (fst e) =? c)%nat && (comp (snd e) =? c)%nat.
Lemma split_part_view g st num comp c : gwf g -> components g st num comp ->
  exists p, split_part g st c = Ok p /\ tight p /\
    getEdgesAsPairs p = map (fun e => (vid g (fst e), vid g (snd e))) (filter (in_comp g comp c) (g_edges g)).
Proof.
  intros W K. unfold split_part.
  destruct (foldM_filter_edges (in_comp g comp c)
              (fun e => (vid g (fst e), vid g (snd e))) (g_edges g)) with (g := empty_graph)
    as (p & E & T & D).
  - intros [u v] I _. cbn. pose proof (w_edge _ W _ _ I) as (N & L1 & L2).
    intros X. apply vid_inj in X; auto.
  - apply tight_empty.
  - exists p. split; [|split; [auto|exact D]]. rewrite <- E. apply foldM_ext.
    intros [u v] s I. cbn [fst snd]. pose proof (w_edge _ W _ _ I) as (N & L1 & L2).
    rewrite !mget_vid by auto. unfold in_comp. cbn [fst snd].
    assert (Eq : forall x, (x < gsize g)%nat -> comp_is st x c = (comp x =? c)%nat).
    { intros x Lx. apply eq_iff_eq_true. rewrite Nat.eqb_eq. now apply (k_is _ _ _ _ K). }
    rewrite !Eq by auto. reflexivity.
Qed.

Lemma mapM_seq {B} (f : nat -> outcome B) (P : nat -> B -> Prop) n :
  (forall c, exists p, f c = Ok p /\ P c p) ->
  exists l, mapM f (seq 0 n) = Ok l /\ List.length l = n /\ forall i p, nth_error l i = Some p -> P i p.
Proof.
  intros H. assert (G : forall n k, exists l, mapM f (seq k n) = Ok l /\ List.length l = n /\
    forall i p, nth_error l i = Some p -> P (k + i)%nat p).
  { clear n. induction n as [|n IH]; intros k; cbn [seq mapM].
    - exists []. split; [reflexivity|]. split; auto. intros i p E. destruct i; discriminate.
    - destruct (H k) as (p & -> & Pp). cbn [bind]. destruct (IH (S k)) as (l & -> & E & Q). cbn [bind].
      exists (p :: l). split; [reflexivity|]. split; [cbn; congruence|].
      intros [|i] q X; cbn in X.
      + injection X as <-. now rewrite Nat.add_0_r.
      + apply Q in X. now replace (k + S i)%nat with (S k + i)%nat by lia. }
  apply (G n 0%nat).
Qed.

Lemma components_zero g st num comp : components g st num comp -> num = 0%nat -> gsize g = 0%nat.
Proof.
  intros K ->. destruct (gsize g) as [|n] eqn:E; auto.
  pose proof (k_lt _ _ _ _ K 0%nat). lia.
Qed.

(** split never fails; the parts are described by the component labels. *)
Lemma split_view g : gwf g -> verticesSize g <> 0%nat -> exists st num comp parts,
  components g st num comp /\ split g = Ok parts /\ List.length parts = num /\
  ((num = 1%nat /\ parts = [g]) \/
   (num <> 1%nat /\ forall c p, nth_error parts c = Some p ->
     tight p /\ getEdgesAsPairs p =
       map (fun e => (vid g (fst e), vid g (snd e))) (filter (in_comp g comp c) (g_edges g)))).
Proof.
  intros W NE. destruct (cc_view g W) as (st & num & comp & R & K).
  unfold split. apply Nat.eqb_neq in NE. rewrite NE, R.
  destruct (Nat.eqb_spec num 1) as [->|N].
  - exists st, 1%nat, comp, [g]. split; [auto|]. split; [reflexivity|]. split; [reflexivity|]. left; auto.
  - destruct (mapM_seq (split_part g st) (fun c p => tight p /\ getEdgesAsPairs p =
       map (fun e => (vid g (fst e), vid g (snd e))) (filter (in_comp g comp c) (g_edges g))) num)
      as (parts & E & L & Q).
    { intros c. now apply (split_part_view g st num comp). }
    exists st, num, comp, parts. split; [auto|]. split; [exact E|]. split; [exact L|]. right. split; auto.
Qed.

(** Reachability and connection. *)
Lemma reach_lt g : gwf g -> forall u v, reach g u v -> (u < gsize g)%nat -> (v < gsize g)%nat.
Proof.
  intros W u v R. induction R as [u v A|u|u v w R1 IH1 R2 IH2]; auto.
  intros _. apply (w_edge _ W _ _ A).
Qed.
Lemma reach_connected g : gwf g -> forall u v, reach g u v ->
  connected (getEdgesAsPairs g) (vid g u) (vid g v).
Proof.
  intros W u v R. induction R as [u v A|u|u v w R1 IH1 R2 IH2].
  - apply rst_step. unfold getEdgesAsPairs. apply in_map_iff. exists (u, v). auto.
  - apply rst_refl.
  - eapply rst_trans; eauto.
Qed.
Lemma connected_ids g : gwf g -> forall a b, connected (getEdgesAsPairs g) a b ->
  (In a (g_ids g) <-> In b (g_ids g)).
Proof.
  intros W a b C. induction C as [a b I|a|a b C IH|a b c C1 IH1 C2 IH2]; try tauto.
  unfold getEdgesAsPairs in I. apply in_map_iff in I as ([u v] & [= <- <-] & I).
  pose proof (w_edge _ W _ _ I) as (_ & L1 & L2). cbn.
  split; intros _; eapply nth_error_In; apply vid_nth; auto.
Qed.
Lemma ids_vid g v : gwf g -> In v (g_ids g) -> exists k, (k < gsize g)%nat /\ vid g k = v.
Proof.
  intros W I. apply In_nth_error in I as [k E]. exists k. split.
  - apply nth_error_Some. congruence.
  - unfold vid. erewrite nth_error_nth; eauto.
Qed.
Lemma vid_ids g k : (k < gsize g)%nat -> In (vid g k) (g_ids g).
Proof. intros L. eapply nth_error_In. now apply vid_nth. Qed.

(** When every edge can be walked back. *)
Definition returning (g : digraph) : Prop := forall u v, arc g u v -> reach g v u.
Section Returning.
  Variables (g : digraph) (st : list (nat * nat)) (num : nat) (comp : nat -> nat).
  Hypothesis W : gwf g.
  Hypothesis K : components g st num comp.
  Hypothesis Ret : returning g.

  Lemma reach_down u v : reach g u v -> (comp v <= comp u)%nat.
  Proof.
    intros R. induction R as [u v A|u|u v w R1 IH1 R2 IH2]; [now apply (k_down _ _ _ _ K)|lia|lia].
  Qed.
  Lemma arc_same u v : arc g u v -> comp u = comp v.
  Proof.
    intros A. pose proof (k_down _ _ _ _ K _ _ A). pose proof (reach_down _ _ (Ret _ _ A)). lia.
  Qed.
  Lemma connected_comp u v : (u < gsize g)%nat -> (v < gsize g)%nat ->
    (comp u = comp v <-> connected (getEdgesAsPairs g) (vid g u) (vid g v)).
  Proof.
    intros U V. split.
    - intros E. destruct (k_root _ _ _ _ K (comp u)) as (r & Lr & Er & Rr); [now apply (k_lt _ _ _ _ K)|].
      eapply rst_trans.
      + apply rst_sym. apply reach_connected; auto.
      + apply reach_connected; auto.
    - assert (G : forall a b, connected (getEdgesAsPairs g) a b -> forall u v, (u < gsize g)%nat -> (v < gsize g)%nat ->
        vid g u = a -> vid g v = b -> comp u = comp v).
      { clear u v U V. intros a b C.
        induction C as [a b I|a|a b C IH|a b c C1 IH1 C2 IH2]; intros u v U V Eu Ev.
        - subst. apply edge_pair in I; auto. now apply arc_same.
        - assert (u = v) by (apply (vid_inj g W); auto; congruence). now subst.
        - symmetry. now apply IH.
        - assert (Ib : In b (g_ids g)) by (apply (connected_ids g W a b C1); subst a; now apply vid_ids).
          destruct (ids_vid g b W Ib) as (k & Lk & Ek). transitivity (comp k); [now apply IH1|now apply IH2]. }
      intros C. now apply (G _ _ C).
  Qed.
End Returning.

(** ** Graphs made of closed paths *)
Lemma path_walk (R : Z -> Z -> Prop) vs :
  (forall e, In e (path_edges vs) -> R (fst e) (snd e)) ->
  forall a b, In a vs -> In b vs -> clos_refl_trans Z R a b.
Proof.
  intros H. destruct vs as [|v r]; [intros a b []|].
  set (n := List.length (v :: r)) in *.
  assert (St : forall i, (i < n)%nat -> R (nth i (v :: r) 0%Z) (nth (S i mod n) (v :: r) 0%Z)).
  { intros i L. apply (H (nth i (v :: r) 0%Z, nth (S i mod n) (v :: r) 0%Z)).
    unfold path_edges. apply in_map_iff. exists i. split; auto. apply in_seq. fold n. lia. }
  (* from the vertex i one reaches the vertex (i + k) mod n *)
  assert (Wk : forall k i, (i < n)%nat ->
    clos_refl_trans Z R (nth i (v :: r) 0%Z) (nth ((i + k) mod n) (v :: r) 0%Z)).
  { induction k as [|k IH]; intros i L.
    - rewrite Nat.add_0_r, Nat.mod_small by auto. apply rt_refl.
    - eapply rt_trans; [apply IH; auto|]. apply rt_step.
      assert (Lm : ((i + k) mod n < n)%nat) by (apply Nat.mod_upper_bound; lia).
      pose proof (St _ Lm) as S1.
      replace ((i + S k) mod n)%nat with (S ((i + k) mod n) mod n)%nat; [exact S1|].
      rewrite <- (Nat.add_1_r ((i + k) mod n)), Nat.add_mod_idemp_l by lia. f_equal. lia. }
  intros a b Ia Ib. apply (In_nth _ _ 0%Z) in Ia as (i & Li & <-). apply (In_nth _ _ 0%Z) in Ib as (j & Lj & <-).
  fold n in Li, Lj. pose proof (Wk (n - i + j)%nat i Li) as X.
  replace ((i + (n - i + j)) mod n)%nat with j in X; [exact X|].
  replace (i + (n - i + j))%nat with (j + 1 * n)%nat by lia. rewrite Nat.mod_add by lia.
  now rewrite Nat.mod_small.
Qed.
Lemma path_edges_ends vs a b : In (a, b) (path_edges vs) -> In a vs /\ In b vs.
Proof.
  intros I. split.
  - rewrite <- (path_edges_fst vs). apply in_map_iff. exists (a, b); auto.
  - apply path_edges_snd_in. apply in_map_iff. exists (a, b); auto.
Qed.

Definition built_from_paths (h : list (list Z)) (g : digraph) : Prop :=
  foldM addClosedPath h empty_graph = Ok g.

Lemma addClosedPath_ok g vs g' : gwf g -> addClosedPath g vs = Ok g' ->
  List.length vs <> 1%nat /\ g' = addEdges_left g (path_edges vs) /\ (forall a, ~ In (a, a) (path_edges vs)).
Proof.
  unfold addClosedPath. intros W E. destruct (Nat.eqb_spec (List.length vs) 1) as [L|L]; [discriminate|].
  rewrite closed_pairs_spec in E. destruct (foldM_addEdge _ _ _ W E) as (N & <-). auto.
Qed.
Lemma foldM_paths h : forall g0 g, tight g0 -> foldM addClosedPath h g0 = Ok g ->
  tight g /\ getEdgesAsPairs g = getEdgesAsPairs g0 ++ flat_map path_edges h /\
  (forall vs, In vs h -> List.length vs <> 1%nat).
Proof.
  induction h as [|vs h IH]; intros g0 g T E; cbn in E.
  - injection E as <-. cbn. rewrite app_nil_r. split; [auto|]. split; [auto|intros vs []].
  - apply bind_ok in E as (g1 & E1 & E).
    destruct (addClosedPath_ok _ _ _ (proj1 T) E1) as (L & -> & N).
    destruct (IH _ _ (tight_addEdges _ _ T) E) as (T' & D & Ls). split; auto. split.
    + rewrite D. destruct (addEdges_left_view (path_edges vs) g0 (proj1 T)) as (_ & _ & ->).
      rewrite until_rejected_all by auto. cbn. now rewrite app_assoc.
    + intros x [<-|I]; auto.
Qed.
Lemma paths_view h g : built_from_paths h g ->
  tight g /\ getEdgesAsPairs g = flat_map path_edges h /\ (forall vs, In vs h -> List.length vs <> 1%nat).
Proof. intros E. apply (foldM_paths h empty_graph g tight_empty E). Qed.

Lemma walk_reach g : gwf g -> forall a b,
  clos_refl_trans Z (fun x y => In (x, y) (getEdgesAsPairs g)) a b ->
  forall u v, (u < gsize g)%nat -> (v < gsize g)%nat -> vid g u = a -> vid g v = b -> reach g u v.
Proof.
  intros W a b C. apply clos_rt_rt1n in C. induction C as [a|a c b S C IH]; intros u v U V Eu Ev.
  - assert (u = v) by (apply (vid_inj g W); auto; congruence). subst. apply rt_refl.
  - assert (Ic : In c (g_ids g)).
    { apply (connected_ids g W a c); [now apply rst_step|]. subst a. now apply vid_ids. }
    destruct (ids_vid g c W Ic) as (k & Lk & Ek). apply rt_trans with k.
    + apply rt_step. subst. now apply edge_pair in S.
    + now apply IH.
Qed.
Lemma paths_returning h g : built_from_paths h g -> returning g.
Proof.
  intros E. destruct (paths_view h g E) as ((W & T) & D & _).
  intros u v A. pose proof (w_edge _ W _ _ A) as (_ & U & V).
  assert (I : In (vid g u, vid g v) (getEdgesAsPairs g)) by now apply edge_pair.
  pose proof I as I'. rewrite D in I'. apply in_flat_map in I' as (vs & Iv & Ie).
  destruct (path_edges_ends _ _ _ Ie) as [Ia Ib].
  apply (walk_reach g W (vid g v) (vid g u)); auto.
  apply (path_walk _ vs); auto. intros [x y] Ixy. cbn. rewrite D. apply in_flat_map. exists vs; auto.
Qed.
