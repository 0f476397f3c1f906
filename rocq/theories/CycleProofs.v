(** Proofs about DirectedGraph::findCycles. *)
From Verif Require Import Prelude StdMap Graph SpecGraph ListLemmas GraphProofs SplitProofs.
From Coq Require Import Permutation Relations.

(** ** Walks *)
Fixpoint chain (R : nat -> nat -> Prop) (u : nat) (l : list nat) : Prop :=
  match l with [] => True | w :: r => R u w /\ chain R w r end.
Lemma chain_app R u l x : chain R u (l ++ [x]) <-> chain R u l /\ R (last l u) x.
Proof.
  revert u; induction l as [|w l IH]; intros u; cbn [app chain].
  - cbn. tauto.
  - rewrite IH. destruct l as [|y l]; [cbn; tauto|].
    change (last (w :: y :: l) u) with (last (y :: l) u).
    assert (last (y :: l) w = last (y :: l) u) as ->; [|tauto].
    clear. revert y; induction l as [|z l IH]; intros y; [reflexivity|]. apply (IH z).
Qed.
Lemma chain_combine (R : nat -> nat -> Prop) u ext x :
  (forall e, In e (combine (u :: ext) (ext ++ [x])) -> R (fst e) (snd e)) <-> chain R u (ext ++ [x]).
Proof.
  revert u; induction ext as [|w ext IH]; intros u.
  - cbn. split.
    + intros H. split; auto. apply (H (u, x)). now left.
    + intros [H _] e [<-|[]]. exact H.
  - change (combine (u :: w :: ext) ((w :: ext) ++ [x])) with ((u, w) :: combine (w :: ext) (ext ++ [x])).
    cbn [app chain]. rewrite <- IH. split.
    + intros H. split; [apply (H (u, w)); now left|]. intros e I. apply H. now right.
    + intros [H1 H2] e [<-|I]; auto.
Qed.

Lemma dedup_in x l : In x (dedup l) <-> In x l.
Proof.
  induction l as [|a l IH]; cbn; [tauto|]. rewrite filter_In, IH, negb_true_iff, Nat.eqb_neq.
  destruct (Nat.eq_dec a x) as [->|N]; intuition congruence.
Qed.
Lemma dedup_nodup l : NoDup (dedup l).
Proof.
  induction l as [|a l IH]; cbn; constructor.
  - rewrite filter_In, Nat.eqb_refl. cbn. intros [_ H]; discriminate.
  - now apply NoDup_filter.
Qed.
Lemma extensions_in g front path u w :
  In w (extensions g front path u) <-> arc g u w /\ (front < w)%nat /\ ~ In w path.
Proof.
  unfold extensions. rewrite dedup_in, filter_In, out_adj_iff, andb_true_iff, Nat.ltb_lt, negb_true_iff, nmem_notin.
  tauto.
Qed.

(** ** The search from one vertex *)
Definition completes (g : digraph) (front : nat) (path : list nat) (u : nat) (ext : list nat) : Prop :=
  chain (arc g) u (ext ++ [front]) /\ NoDup (path ++ ext) /\
  (forall w, In w ext -> (front < w)%nat) /\ (2 <= List.length (path ++ ext))%nat.

Lemma nodup_app_mid {A} (l : list A) x r : NoDup (l ++ x :: r) -> ~ In x l /\ NoDup (l ++ r).
Proof. intros H. pose proof (NoDup_remove_1 _ _ _ H). pose proof (NoDup_remove_2 _ _ _ H). rewrite in_app_iff in *. tauto. Qed.

Section Search.
  Variable g : digraph.
  Hypothesis W : gwf g.
  Variable front : nat.

  Lemma small_path path : NoDup path -> (forall x, In x path -> (x < gsize g)%nat) ->
    (List.length path <= gsize g)%nat.
  Proof.
    intros ND B. rewrite <- (seq_length (gsize g) 0). apply NoDup_incl_length; auto.
    intros x I. apply in_seq. apply B in I. lia.
  Qed.

  Lemma cycles_from_spec : forall fuel path u c,
    NoDup path -> (forall x, In x path -> (x < gsize g)%nat) -> (gsize g < fuel + List.length path)%nat ->
    (In c (cycles_from fuel g front path u) <->
     exists ext, c = path ++ ext /\ completes g front path u ext).
  Proof.
    induction fuel as [|f IH]; intros path u c ND B F.
    { pose proof (small_path path ND B). cbn in F. lia. }
    cbn [cycles_from]. rewrite in_app_iff, in_flat_map. split.
    - intros [(w & Iw & Ic)|Ic].
      + apply extensions_in in Iw as (A & L & N).
        apply IH in Ic as (ext & -> & (Ch & ND' & Gt & Le)).
        * exists (w :: ext). rewrite <- app_assoc in *. cbn [app] in *. split; [auto|].
          split; [split; auto|]. split; [auto|]. split; [|auto].
          intros x [<-|I]; auto.
        * now apply NoDup_app_snoc.
        * intros x I. apply in_app_iff in I as [I|[<-|[]]]; auto. apply (w_edge _ W _ _ A).
        * rewrite app_length. cbn. lia.
      + destruct ((2 <=? List.length path)%nat && has_edge g u front) eqn:E; [|destruct Ic].
        destruct Ic as [<-|[]]. apply andb_prop in E as [E1 E2]. apply Nat.leb_le in E1.
        apply has_edge_iff in E2. exists []. rewrite app_nil_r. split; [auto|].
        split; [split; [exact E2|exact I]|]. rewrite app_nil_r. split; [auto|]. split; [intros w []|auto].
    - intros (ext & -> & (Ch & ND' & Gt & Le)). destruct ext as [|w ext].
      + right. rewrite app_nil_r in *. cbn in Ch. apply Nat.leb_le in Le. rewrite Le.
        destruct Ch as [Ch _]. apply has_edge_iff in Ch. rewrite Ch. now left.
      + left. cbn [app chain] in Ch. destruct Ch as [A Ch]. exists w. split.
        * apply extensions_in. split; auto. split; [apply Gt; now left|].
          apply nodup_app_mid in ND'. tauto.
        * apply IH.
          -- apply NoDup_app_snoc; auto. apply nodup_app_mid in ND'. tauto.
          -- intros x I. apply in_app_iff in I as [I|[<-|[]]]; auto. apply (w_edge _ W _ _ A).
          -- rewrite app_length. cbn. lia.
          -- exists ext. rewrite <- app_assoc. cbn. split; [auto|]. split; [auto|].
             rewrite <- app_assoc. cbn. split; [auto|]. split; auto. intros x I. apply Gt. now right.
  Qed.

  Lemma NoDup_app' {A} (l1 l2 : list A) : NoDup l1 -> NoDup l2 -> (forall x, In x l1 -> In x l2 -> False) -> NoDup (l1 ++ l2).
  Proof.
    induction l1 as [|a l1 IH]; intros N1 N2 D; cbn; auto. inversion N1; subst. constructor.
    - rewrite in_app_iff. intros [I|I]; [contradiction|]. apply (D a); auto. now left.
    - apply IH; auto. intros x I J. apply (D x); auto. now right.
  Qed.
  Lemma NoDup_flat_map {A B} (f : A -> list B) l :
    NoDup l -> (forall a, In a l -> NoDup (f a)) ->
    (forall a b x, In a l -> In b l -> In x (f a) -> In x (f b) -> a = b) -> NoDup (flat_map f l).
  Proof.
    induction l as [|a l IH]; intros N F D; cbn; [constructor|]. inversion N; subst.
    apply NoDup_app'.
    - apply F; now left.
    - apply IH; auto.
      + intros; apply F; now right.
      + intros x y z I J; apply D; now right.
    - intros x I J. apply in_flat_map in J as (b & Ib & J).
      assert (a = b) by (apply (D a b x); auto; [now left|now right]). now subst.
  Qed.

  Lemma cycles_from_nodup : forall fuel path u,
    NoDup path -> (forall x, In x path -> (x < gsize g)%nat) -> (gsize g < fuel + List.length path)%nat ->
    NoDup (cycles_from fuel g front path u).
  Proof.
    induction fuel as [|f IH]; intros path u ND B F; [constructor|].
    assert (Pre : forall w, In w (extensions g front path u) ->
      NoDup (path ++ [w]) /\ (forall x, In x (path ++ [w]) -> (x < gsize g)%nat) /\
      (gsize g < f + List.length (path ++ [w]))%nat).
    { intros w Iw. apply extensions_in in Iw as (A & L & N). split; [now apply NoDup_app_snoc|]. split.
      - intros x I. apply in_app_iff in I as [I|[<-|[]]]; auto. apply (w_edge _ W _ _ A).
      - rewrite app_length. cbn. lia. }
    cbn [cycles_from]. apply NoDup_app'.
    - apply NoDup_flat_map.
      + apply dedup_nodup.
      + intros w Iw. destruct (Pre w Iw) as (P1 & P2 & P3). now apply IH.
      + intros a b x Ia Ib Ja Jb.
        destruct (Pre a Ia) as (P1 & P2 & P3). destruct (Pre b Ib) as (Q1 & Q2 & Q3).
        apply cycles_from_spec in Ja as (e1 & E1 & _); auto.
        apply cycles_from_spec in Jb as (e2 & E2 & _); auto.
        rewrite E1 in E2. rewrite <- !app_assoc in E2. apply app_inv_head in E2. cbn in E2. congruence.
    - destruct ((2 <=? List.length path)%nat && has_edge g u front); repeat constructor; auto.
    - intros x I J. destruct ((2 <=? List.length path)%nat && has_edge g u front); [|destruct J].
      destruct J as [<-|[]]. apply in_flat_map in I as (w & Iw & I).
      destruct (Pre w Iw) as (P1 & P2 & P3). apply cycles_from_spec in I as (e & E & _); auto.
      apply (f_equal (@List.length nat)) in E. rewrite !app_length in E. cbn in E. lia.
  Qed.
End Search.

(** ** All the cycles, as descriptors *)
(** A cycle that starts at its smallest descriptor. *)
Definition normal_cycle (g : digraph) (c : list nat) : Prop :=
  exists v ext, c = v :: ext /\ (v < gsize g)%nat /\ completes g v [v] v ext.

Lemma all_cycles_spec g c : gwf g -> (In c (all_cycles g) <-> normal_cycle g c).
Proof.
  intros W. unfold all_cycles. rewrite in_flat_map. split.
  - intros (v & Iv & Ic). apply in_seq in Iv. unfold verticesSize in Iv. cbn in Iv.
    apply cycles_from_spec in Ic as (ext & -> & C); auto.
    + exists v, ext. split; [reflexivity|]. split; [unfold gsize; lia|auto].
    + repeat constructor; auto.
    + intros x [<-|[]]. unfold gsize. lia.
    + cbn. unfold verticesSize, gsize. lia.
  - intros (v & ext & -> & L & C). exists v. split; [apply in_seq; unfold verticesSize, gsize in *; lia|].
    apply cycles_from_spec; auto.
    + repeat constructor; auto.
    + intros x [<-|[]]. auto.
    + cbn. unfold verticesSize, gsize. lia.
    + exists ext. split; auto.
Qed.
Lemma all_cycles_nodup g : gwf g -> NoDup (all_cycles g).
Proof.
  intros W. assert (P : forall v, In v (seq 0 (verticesSize g)) -> NoDup [v] /\
    (forall x, In x [v] -> (x < gsize g)%nat) /\ (gsize g < verticesSize g + List.length [v])%nat).
  { intros v I. apply in_seq in I. unfold verticesSize in *. split; [repeat constructor; auto|]. split.
    - intros x [<-|[]]. unfold gsize. lia.
    - cbn. unfold gsize. lia. }
  unfold all_cycles. apply NoDup_flat_map.
  - apply seq_NoDup.
  - intros v I. destruct (P v I) as (P1 & P2 & P3). now apply cycles_from_nodup.
  - intros a b x Ia Ib Ja Jb. destruct (P a Ia) as (P1 & P2 & P3). destruct (P b Ib) as (Q1 & Q2 & Q3).
    apply cycles_from_spec in Ja as (e1 & E1 & _); auto.
    apply cycles_from_spec in Jb as (e2 & E2 & _); auto. rewrite E1 in E2. cbn in E2. congruence.
Qed.

(** ** Back to ids *)
Lemma combine_app {A B} (a1 a2 : list A) (b1 b2 : list B) : List.length a1 = List.length b1 ->
  combine (a1 ++ a2) (b1 ++ b2) = combine a1 b1 ++ combine a2 b2.
Proof.
  revert b1; induction a1 as [|x a1 IH]; intros [|y b1] E; cbn in *; try discriminate; auto.
  f_equal. apply IH. lia.
Qed.
Lemma path_edges_rot l1 l2 e : In e (path_edges (l1 ++ l2)) -> In e (path_edges (l2 ++ l1)).
Proof.
  destruct l1 as [|a l1]; [rewrite app_nil_r; auto|].
  destruct l2 as [|b l2]; [rewrite app_nil_r; auto|].
  cbn [app]. rewrite !path_edges_cons. rewrite <- !app_assoc. cbn [app].
  change (a :: l1 ++ b :: l2) with ((a :: l1) ++ (b :: l2)).
  replace (l1 ++ b :: l2 ++ [a]) with ((l1 ++ [b]) ++ (l2 ++ [a])) by (now rewrite <- app_assoc).
  change (b :: l2 ++ a :: l1) with ((b :: l2) ++ (a :: l1)).
  replace (l2 ++ a :: l1 ++ [b]) with ((l2 ++ [a]) ++ (l1 ++ [b])) by (now rewrite <- app_assoc).
  rewrite !combine_app by (rewrite app_length; cbn; lia). rewrite !in_app_iff. tauto.
Qed.
Lemma rotation_sym c d : rotation c d -> rotation d c.
Proof. intros (l1 & l2 & -> & ->). exists l2, l1; auto. Qed.
Lemma rotation_perm c d : rotation c d -> Permutation c d.
Proof. intros (l1 & l2 & -> & ->). apply Permutation_app_comm. Qed.
Lemma elementary_rotation es c d : rotation c d -> elementary_cycle es c -> elementary_cycle es d.
Proof.
  intros R (L & ND & E). pose proof (rotation_perm _ _ R) as P. split; [|split].
  - now rewrite <- (Permutation_length P).
  - eapply Permutation_NoDup; eauto.
  - destruct R as (l1 & l2 & -> & ->). intros e I. apply E. now apply path_edges_rot.
Qed.

Lemma map_combine {A B} (f : A -> B) l l' :
  combine (map f l) (map f l') = map (fun e => (f (fst e), f (snd e))) (combine l l').
Proof. revert l'; induction l as [|a l IH]; intros [|b l']; cbn; auto. now rewrite IH. Qed.

Section Ids.
  Variable g : digraph.
  Hypothesis W : gwf g.
  Let f := vid g.

  (** The cycle condition on descriptors is the one on ids. *)
  Lemma cycle_ids v ext : (forall x, In x (v :: ext) -> (x < gsize g)%nat) ->
    ((forall e, In e (path_edges (map f (v :: ext))) -> In e (getEdgesAsPairs g)) <->
     chain (arc g) v (ext ++ [v])).
  Proof.
    intros B. rewrite <- chain_combine. cbn [map]. rewrite path_edges_cons.
    change (f v :: map f ext) with (map f (v :: ext)).
    change [f v] with (map f [v]). rewrite <- map_app, map_combine.
    assert (Q : forall e, In e (combine (v :: ext) (ext ++ [v])) -> (fst e < gsize g)%nat /\ (snd e < gsize g)%nat).
    { intros [x y] I. pose proof (in_combine_l _ _ _ _ I) as I1. pose proof (in_combine_r _ _ _ _ I) as I2.
      split; [now apply B|]. cbn. apply in_app_iff in I2 as [I2|[<-|[]]]; apply B; cbn; auto. }
    split.
    - intros H [x y] I. apply (edge_pair g W); try apply (Q _ I). apply H.
      apply in_map_iff. exists (x, y). auto.
    - intros H e I. apply in_map_iff in I as ([x y] & <- & I). apply edge_pair; auto; try apply (Q _ I).
      exact (H _ I).
  Qed.
  Lemma map_nodup l : (forall x, In x l -> (x < gsize g)%nat) -> (NoDup (map f l) <-> NoDup l).
  Proof.
    intros B. split; [apply NoDup_map_inv|]. intros ND.
    induction l as [|a l IH]; cbn; [constructor|]. inversion ND; subst. constructor.
    - intros I. apply in_map_iff in I as (y & E & I). apply (vid_inj g W) in E.
      + subst. contradiction.
      + apply B; now right.
      + apply B; now left.
    - apply IH; auto. intros; apply B; now right.
  Qed.

  Lemma normal_lt c : normal_cycle g c -> forall x, In x c -> (x < gsize g)%nat.
  Proof.
    intros (v & ext & -> & L & (Ch & _)). assert (G : forall u, (u < gsize g)%nat -> chain (arc g) u (ext ++ [v]) ->
      forall x, In x ext -> (x < gsize g)%nat).
    { clear -W. induction ext as [|w ext IH]; intros u U Ch x I; [destruct I|].
      cbn [app chain] in Ch. destruct Ch as [A Ch].
      assert ((w < gsize g)%nat) by apply (w_edge _ W _ _ A). destruct I as [<-|I]; auto. now apply (IH w). }
    intros x [<-|I]; auto. now apply (G v).
  Qed.

  Lemma normal_elementary c : normal_cycle g c -> elementary_cycle (getEdgesAsPairs g) (map f c).
  Proof.
    intros N. pose proof (normal_lt c N) as B. destruct N as (v & ext & -> & L & (Ch & ND & Gt & Le)).
    split; [|split].
    - rewrite map_length. exact Le.
    - apply map_nodup; auto.
    - apply cycle_ids; auto.
  Qed.

  Lemma elementary_lift c : elementary_cycle (getEdgesAsPairs g) c ->
    exists ds, c = map f ds /\ (forall x, In x ds -> (x < gsize g)%nat).
  Proof.
    intros (L & ND & E).
    assert (A : forall x, In x c -> exists k, (k < gsize g)%nat /\ f k = x).
    { intros x I. rewrite <- (path_edges_fst c) in I. apply in_map_iff in I as ([a b] & <- & I). cbn.
      apply E in I. unfold getEdgesAsPairs in I. apply in_map_iff in I as ([u w] & [= <- <-] & I).
      exists u. split; auto. apply (w_edge _ W _ _ I). }
    clear L ND E. induction c as [|a c IH].
    - exists []. split; [reflexivity|]. intros x [].
    - destruct IH as (ds & -> & B); [intros; apply A; now right|].
      destruct (A a (or_introl eq_refl)) as (k & Lk & <-). exists (k :: ds). split; [reflexivity|].
      intros x [<-|I]; auto.
  Qed.

  (** Rotating a list so that a given element comes first. *)
  Lemma min_exists (l : list nat) : l <> [] -> exists m, In m l /\ forall x, In x l -> (m <= x)%nat.
  Proof.
    induction l as [|a l IH]; intros N; [contradiction|]. destruct l as [|b l].
    - exists a. split; [now left|]. intros x [<-|[]]; auto.
    - destruct IH as (m & I & H); [discriminate|]. destruct (Nat.le_ge_cases a m).
      + exists a. split; [now left|]. intros x [<-|J]; auto. apply H in J. lia.
      + exists m. split; [now right|]. intros x [<-|J]; auto.
  Qed.

  Lemma normalise c : elementary_cycle (getEdgesAsPairs g) c ->
    exists d, normal_cycle g d /\ rotation c (map f d).
  Proof.
    intros Ec. destruct (elementary_lift c Ec) as (ds & -> & B).
    assert (NE : ds <> []). { destruct Ec as (L & _). intros ->. cbn in L. lia. }
    destruct (min_exists ds NE) as (m & Im & Hm). apply in_split in Im as (l1 & l2 & ->).
    assert (R : rotation (map f (l1 ++ m :: l2)) (map f ((m :: l2) ++ l1))).
    { exists (map f l1), (map f (m :: l2)). now rewrite !map_app. }
    pose proof (elementary_rotation _ _ _ R Ec) as (L & ND & E).
    assert (B' : forall x, In x ((m :: l2) ++ l1) -> (x < gsize g)%nat).
    { intros x I. apply B. rewrite in_app_iff in *. cbn in *. tauto. }
    exists ((m :: l2) ++ l1). split; [|exact R]. cbn [app] in *.
    apply map_nodup in ND; auto. exists m, (l2 ++ l1). split; [reflexivity|]. split; [apply B'; now left|].
    split; [|split; [|split]].
    - apply cycle_ids; auto.
    - exact ND.
    - intros w I. inversion ND as [|? ? N ND']; subst.
      assert ((m <= w)%nat). { apply Hm. rewrite in_app_iff in *. cbn. tauto. }
      assert (m <> w) by (intros ->; contradiction). lia.
    - rewrite map_length in L. exact L.
  Qed.

  Lemma rotation_same c d : normal_cycle g c -> normal_cycle g d -> rotation (map f c) (map f d) -> c = d.
  Proof.
    intros Nc Nd R. pose proof (normal_lt c Nc) as Bc. pose proof (normal_lt d Nd) as Bd.
    destruct R as (l1 & l2 & E1 & E2).
    (* lift the rotation to descriptors *)
    assert (exists k1 k2, c = k1 ++ k2 /\ d = k2 ++ k1) as (k1 & k2 & -> & ->).
    { exists (firstn (List.length l1) c), (skipn (List.length l1) c). split; [now rewrite firstn_skipn|].
      assert (M1 : map f (firstn (List.length l1) c) = l1).
      { rewrite <- firstn_map, E1, firstn_app, firstn_all, Nat.sub_diag. cbn. apply app_nil_r. }
      assert (M2 : map f (skipn (List.length l1) c) = l2).
      { rewrite <- skipn_map, E1, skipn_app, skipn_all, Nat.sub_diag. reflexivity. }
      assert (E3 : map f d = map f (skipn (List.length l1) c ++ firstn (List.length l1) c)).
      { now rewrite map_app, M1, M2. }
      assert (Bs : forall x, In x (skipn (List.length l1) c ++ firstn (List.length l1) c) -> (x < gsize g)%nat).
      { intros x I. apply Bc. rewrite <- (firstn_skipn (List.length l1) c). rewrite in_app_iff in *. tauto. }
      revert E3 Bs Bd. generalize (skipn (List.length l1) c ++ firstn (List.length l1) c). clear -W.
      induction d as [|a d IH]; intros [|b l] E3 Bs Bd; cbn in E3; try discriminate; auto.
      injection E3 as E E3. apply (vid_inj g W) in E.
      - subst. f_equal. apply IH; auto; intros; [apply Bs|apply Bd]; now right.
      - apply Bd; now left.
      - apply Bs; now left. }
    destruct Nc as (v & e & Ev & _ & (_ & ND & Gv & _)). destruct Nd as (w & e' & Ew & _ & (_ & _ & Gw & _)).
    assert (v = w).
    { assert (Iw : In w (k1 ++ k2)). { assert (In w (k2 ++ k1)) by (rewrite Ew; now left). rewrite in_app_iff in *. tauto. }
      assert (Iv : In v (k2 ++ k1)). { assert (In v (k1 ++ k2)) by (rewrite Ev; now left). rewrite in_app_iff in *. tauto. }
      rewrite Ev in Iw. rewrite Ew in Iv. destruct Iw as [E|Iw]; auto. destruct Iv as [E|Iv]; auto.
      apply Gv in Iw. apply Gw in Iv. lia. }
    subst w. destruct k1 as [|a k1]; [now rewrite app_nil_r|].
    destruct k2 as [|b k2]; [now rewrite app_nil_r|].
    cbn in Ev, Ew. injection Ev as -> Ev. injection Ew as -> Ew. subst e.
    cbn in ND. inversion ND as [|? ? N _]; subst. exfalso. apply N. apply in_app_iff. right. now left.
  Qed.
End Ids.

(** findCycles. *)
Lemma findCycles_spec g : gwf g ->
  (forall c, In c (findCycles g) -> elementary_cycle (getEdgesAsPairs g) c) /\
  (forall c, elementary_cycle (getEdgesAsPairs g) c -> exists d, In d (findCycles g) /\ rotation c d) /\
  (forall c d, In c (findCycles g) -> In d (findCycles g) -> rotation c d -> c = d) /\
  NoDup (findCycles g).
Proof.
  intros W. unfold findCycles. split; [|split; [|split]].
  - intros c I. apply in_map_iff in I as (d & <- & I). apply all_cycles_spec in I; auto.
    now apply normal_elementary.
  - intros c E. destruct (normalise g W c E) as (d & N & R). exists (map (vid g) d). split; auto.
    apply in_map. now apply all_cycles_spec.
  - intros c d Ic Id R. apply in_map_iff in Ic as (c' & <- & Ic). apply in_map_iff in Id as (d' & <- & Id).
    apply all_cycles_spec in Ic; auto. apply all_cycles_spec in Id; auto. f_equal.
    now apply (rotation_same g W).
  - pose proof (all_cycles_nodup g W) as ND.
    assert (B : forall c, In c (all_cycles g) -> normal_cycle g c) by (intros; now apply all_cycles_spec).
    induction (all_cycles g) as [|a l IH]; cbn; [constructor|]. inversion ND; subst. constructor.
    + intros I. apply in_map_iff in I as (y & E & I). assert (y = a).
      { apply (rotation_same g W); [apply B; now right|apply B; now left|].
        exists [], (map (vid g) y). rewrite app_nil_r. split; auto. }
      now subst.
    + apply IH; auto. intros; apply B; now right.
Qed.
