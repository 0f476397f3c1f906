(** Proofs about Model::determineOpenness. *)
From Verif Require Import Prelude StdMap Graph Materials ModelM SpecGraph ListLemmas GraphProofs SplitProofs CycleProofs.
From Coq Require Import Permutation Relations ListDec.

Lemma not_NoDup' (l : list Z) : ~ NoDup l -> exists a l1 l2 l3, l = l1 ++ a :: l2 ++ a :: l3.
Proof.
  induction l as [|x l IH]; intros N; [exfalso; apply N; constructor|].
  destruct (in_dec Z.eq_dec x l) as [I|I].
  - apply in_split in I as (l2 & l3 & ->). exists x, [], l2, l3. reflexivity.
  - destruct IH as (a & l1 & l2 & l3 & ->); [intros ND; apply N; now constructor|].
    exists a, (x :: l1), l2, l3. reflexivity.
Qed.

(** ** Graphs where no two edges start at the same vertex *)
Section Functional.
  Variable es : list (Z * Z).
  Hypothesis Starts : NoDup (map fst es).
  Hypothesis NoLoop : forall a, ~ In (a, a) es.

  Definition next (z : Z) : Z :=
    match find (fun e => (fst e =? z)%Z) es with Some e => snd e | None => z end.
  Lemma next_in a b : In (a, b) es -> next a = b.
  Proof.
    intros I. unfold next. destruct (find (fun e => (fst e =? a)%Z) es) as [[x y]|] eqn:F.
    - apply find_some in F as [J E]. cbn in E. apply Z.eqb_eq in E. subst x. cbn.
      clear NoLoop. induction es as [|[u v] l IH]; [destruct I|].
      cbn in Starts. inversion Starts as [|? ? N ND]; subst.
      destruct I as [I|I], J as [J|J]; auto.
      + congruence.
      + injection I as -> ->. exfalso. apply N. apply in_map_iff. exists (a, y); auto.
      + injection J as -> ->. exfalso. apply N. apply in_map_iff. exists (a, b); auto.
    - exfalso. apply find_none with (x := (a, b)) in F; auto. cbn in F. now rewrite Z.eqb_refl in F.
  Qed.
  Lemma next_edge a : In a (map fst es) -> In (a, next a) es.
  Proof.
    intros I. apply in_map_iff in I as ([x y] & <- & I). cbn. now rewrite (next_in x y I).
  Qed.

  Definition iter (k : nat) (z : Z) : Z := Nat.iter k next z.
  Lemma iter_add i j z : iter (i + j) z = iter i (iter j z).
  Proof. induction i as [|i IH]; [reflexivity|]. change (next (iter (i + j) z) = next (iter i (iter j z))). now rewrite IH. Qed.

  Lemma cycle_next c i : elementary_cycle es c -> (i < List.length c)%nat ->
    next (nth i c 0%Z) = nth (S i mod List.length c) c 0%Z.
  Proof.
    intros (L & ND & E) Li. apply next_in. apply E. unfold path_edges. apply in_map_iff.
    exists i. split; auto. apply in_seq. lia.
  Qed.
  Lemma cycle_iter c : elementary_cycle es c ->
    forall i, (i < List.length c)%nat -> nth i c 0%Z = iter i (nth 0 c 0%Z).
  Proof.
    intros Ec. induction i as [|i IH]; intros Li; [reflexivity|].
    change (iter (S i) (nth 0 c 0%Z)) with (next (iter i (nth 0 c 0%Z))).
    rewrite <- IH by lia. rewrite cycle_next by (auto; lia). now rewrite Nat.mod_small.
  Qed.
  Lemma cycle_closes c : elementary_cycle es c -> iter (List.length c) (nth 0 c 0%Z) = nth 0 c 0%Z.
  Proof.
    intros Ec. pose proof Ec as (L & _). destruct (List.length c) as [|n] eqn:Ln; [lia|].
    change (next (iter n (nth 0 c 0%Z)) = nth 0 c 0%Z).
    rewrite <- cycle_iter by (auto; lia). rewrite cycle_next by (auto; lia).
    rewrite Ln. now rewrite Nat.mod_same.
  Qed.
  Lemma cycle_same_head c d : elementary_cycle es c -> elementary_cycle es d ->
    nth 0 c 0%Z = nth 0 d 0%Z -> c = d.
  Proof.
    assert (Le : forall c d, elementary_cycle es c -> elementary_cycle es d ->
      nth 0 c 0%Z = nth 0 d 0%Z -> (List.length d <= List.length c)%nat).
    { intros c' d' Ec Ed H. destruct (Nat.le_gt_cases (List.length d') (List.length c')) as [X|X]; auto.
      exfalso. pose proof Ed as (L & ND & _). pose proof Ec as (Lc & _).
      assert (Q : nth (List.length c') d' 0%Z = nth 0 d' 0%Z).
      { rewrite (cycle_iter d') by auto. rewrite <- H. now apply cycle_closes. }
      apply (proj1 (NoDup_nth d' 0%Z) ND) in Q; lia. }
    intros Ec Ed H. assert (L : List.length c = List.length d).
    { apply Nat.le_antisymm; apply Le; auto. }
    apply (nth_ext _ _ 0%Z 0%Z); auto. intros i Li.
    rewrite (cycle_iter c Ec i Li), (cycle_iter d Ed i) by lia. now rewrite H.
  Qed.

  Lemma cycle_starts c x : elementary_cycle es c -> In x c -> In x (map fst es).
  Proof.
    intros (_ & _ & E) I. rewrite <- (path_edges_fst c) in I. apply in_map_iff in I as (e & <- & I).
    apply in_map. now apply E.
  Qed.
  Lemma cycle_ends c x : elementary_cycle es c -> In x c -> In x (map snd es).
  Proof.
    intros (_ & _ & E) I. apply path_edges_snd_in in I. apply in_map_iff in I as (e & <- & I).
    apply in_map. now apply E.
  Qed.
End Functional.

Section FunctionalGraph.
  Variable g : digraph.
  Hypothesis W : gwf g.
  Let es := getEdgesAsPairs g.
  Hypothesis Starts : NoDup (map fst es).

  Lemma rotate_to x (c : list Z) : In x c -> exists r, rotation c (x :: r).
  Proof.
    intros I. apply in_split in I as (l1 & l2 & ->). exists (l2 ++ l1), l1, (x :: l2). split; auto.
  Qed.
  Lemma cycles_share c d x : In c (findCycles g) -> In d (findCycles g) -> In x c -> In x d -> c = d.
  Proof.
    intros Ic Id Jc Jd. destruct (findCycles_spec g W) as (So & _).
    pose proof (So c Ic) as Ec. pose proof (So d Id) as Ed.
    destruct (rotate_to x c Jc) as (rc & Rc). destruct (rotate_to x d Jd) as (rd & Rd).
    assert (X : x :: rc = x :: rd).
    { apply (cycle_same_head es Starts); [eapply elementary_rotation; eauto|eapply elementary_rotation; eauto|reflexivity]. }
    rewrite X in Rc.
    assert (P : Permutation c d).
    { eapply Permutation_trans; [apply rotation_perm, Rc|]. apply Permutation_sym, rotation_perm, Rd. }
    unfold findCycles in Ic, Id. apply in_map_iff in Ic as (c' & <- & Ic). apply in_map_iff in Id as (d' & <- & Id).
    apply all_cycles_spec in Ic; auto. apply all_cycles_spec in Id; auto.
    pose proof (normal_lt g W c' Ic) as Bc. pose proof (normal_lt g W d' Id) as Bd.
    destruct Ic as (v & e & -> & Lv & (_ & _ & Gv & _)). destruct Id as (w & e' & -> & Lw & (_ & _ & Gw & _)).
    apply (cycle_same_head es Starts); auto. cbn [map nth]. f_equal.
    assert (Tr : forall y l, In (vid g y) (map (vid g) l) -> (y < gsize g)%nat ->
      (forall z, In z l -> (z < gsize g)%nat) -> In y l).
    { intros y l I L B. apply in_map_iff in I as (z & E & I). apply (vid_inj g W) in E; auto. now subst. }
    assert (Iw : In w (v :: e)).
    { apply Tr; auto. eapply Permutation_in; [apply Permutation_sym, P|]. now left. }
    assert (Iv : In v (w :: e')).
    { apply Tr; auto. eapply Permutation_in; [apply P|]. now left. }
    destruct Iw as [E|Iw]; auto. destruct Iv as [E|Iv]; auto. apply Gv in Iw. apply Gw in Iv. lia.
  Qed.
  Lemma cycles_nodup : NoDup (List.concat (findCycles g)).
  Proof.
    destruct (findCycles_spec g W) as (So & _ & _ & ND).
    rewrite <- (map_id (findCycles g)), <- flat_map_concat_map. apply NoDup_flat_map; auto.
    - intros c I. apply (So c I).
    - intros c d x Ic Id Jc Jd. now apply (cycles_share c d x).
  Qed.

  (** Everything is on a cycle iff every start is an end. *)
  Lemma least (P : nat -> Prop) : (forall k, {P k} + {~ P k}) -> forall n, P n ->
    exists m, P m /\ forall k, (k < m)%nat -> ~ P k.
  Proof.
    intros D n. induction n as [n IH] using lt_wf_ind. intros Pn.
    assert (S : (exists k, (k < n)%nat /\ P k) \/ (forall k, (k < n)%nat -> ~ P k)).
    { clear -D. induction n as [|n IHn].
      - right. intros; lia.
      - destruct IHn as [(k & L & H)|H]; [left; exists k; split; [lia|auto]|].
        destruct (D n) as [Y|N]; [left; exists n; split; auto; lia|].
        right. intros k L. destruct (Nat.eq_dec k n) as [->|Ne]; auto. apply H. lia. }
    destruct S as [(k & L & H)|H]; [now apply (IH k)|exists n; auto].
  Qed.

  Lemma ends_perm : incl (map fst es) (map snd es) -> Permutation (map fst es) (map snd es).
  Proof.
    intros I. apply NoDup_Permutation_bis; auto. now rewrite !map_length.
  Qed.
  Lemma closed_on_cycle : (forall a, ~ In (a, a) es) -> incl (map fst es) (map snd es) ->
    forall s, In s (map fst es) -> exists c, elementary_cycle es c /\ In s c.
  Proof.
    intros NL Inc s Is. pose proof (ends_perm Inc) as P.
    assert (NDe : NoDup (map snd es)) by (eapply Permutation_NoDup; eauto).
    assert (Cl : forall z, In z (map fst es) -> In (next es z) (map fst es)).
    { intros z I. apply (next_edge es Starts) in I. eapply Permutation_in; [apply Permutation_sym, P|].
      apply in_map_iff. exists (z, next es z). auto. }
    assert (It : forall k, In (iter es k s) (map fst es)).
    { induction k as [|k IH]; [exact Is|]. now apply Cl. }
    assert (Inj : forall x y, In x (map fst es) -> In y (map fst es) -> next es x = next es y -> x = y).
    { intros x y Ix Iy E. apply (next_edge es Starts) in Ix. apply (next_edge es Starts) in Iy.
      rewrite E in Ix. revert Ix Iy NDe. clear. generalize (next es y). intros b.
      induction es as [|[u v] l IH]; intros Ix Iy ND; [destruct Ix|]. cbn in ND. inversion ND as [|? ? N ND']; subst.
      destruct Ix as [Ix|Ix], Iy as [Iy|Iy]; auto.
      - congruence.
      - injection Ix as -> ->. exfalso. apply N. apply in_map_iff. exists (y, b); auto.
      - injection Iy as -> ->. exfalso. apply N. apply in_map_iff. exists (x, b); auto. }
    assert (InjK : forall k x y, In x (map fst es) -> In y (map fst es) -> iter es k x = iter es k y -> x = y).
    { induction k as [|k IH]; intros x y Ix Iy E; auto.
      apply IH; auto. apply Inj; auto.
      - clear -Cl Ix. induction k as [|k IHk]; auto. now apply Cl.
      - clear -Cl Iy. induction k as [|k IHk]; auto. now apply Cl. }
    (* pigeonhole: the orbit returns *)
    set (orbit := map (fun k => iter es k s) (seq 0 (S (List.length es)))).
    assert (Rep : exists k, (0 < k)%nat /\ iter es k s = s).
    { destruct (NoDup_dec Z.eq_dec orbit) as [ND|Dup].
      - exfalso. assert (L : (List.length orbit <= List.length (map fst es))%nat).
        { apply NoDup_incl_length; auto. intros x I. apply in_map_iff in I as (k & <- & _). apply It. }
        unfold orbit in L. rewrite !map_length, seq_length in L. lia.
      - assert (exists i j, (i < j)%nat /\ iter es i s = iter es j s) as (i & j & Lij & E).
        { destruct (not_NoDup' orbit Dup) as (a & l1 & l2 & l3 & E).
          exists (List.length l1), (S (List.length l1 + List.length l2)). split; [lia|].
          assert (N : forall k x, nth_error orbit k = Some x -> x = iter es k s).
          { intros k x N. unfold orbit in N. rewrite nth_error_map in N.
            destruct (nth_error (seq 0 (S (List.length es))) k) as [q|] eqn:Q; [|discriminate].
            cbn in N. injection N as <-.
            assert (Lk : (k < S (List.length es))%nat).
            { rewrite <- (seq_length (S (List.length es)) 0). apply nth_error_Some. congruence. }
            apply nth_error_nth with (d := 0%nat) in Q. rewrite seq_nth in Q by auto. now subst. }
          transitivity a; [symmetry|]; apply N; rewrite E.
          - rewrite nth_error_app2, Nat.sub_diag by lia. reflexivity.
          - rewrite nth_error_app2 by lia.
            replace (S (List.length l1 + List.length l2) - List.length l1)%nat with (S (List.length l2)) by lia.
            cbn. rewrite nth_error_app2, Nat.sub_diag by lia. reflexivity. }
        exists (j - i)%nat. split; [lia|]. apply (InjK i); auto. rewrite <- iter_add.
        replace (i + (j - i))%nat with j by lia. congruence. }
    destruct Rep as (k0 & Pk0 & Ek0).
    destruct (least (fun k => (0 < k)%nat /\ iter es k s = s)) with (n := k0) as (k & (Pk & Ek) & Mk); auto.
    { intros q. destruct (Nat.eq_dec q 0) as [->|Ne]; [right; lia|].
      destruct (Z.eq_dec (iter es q s) s); [left; split; [lia|auto]|right; tauto]. }
    exists (map (fun i => iter es i s) (seq 0 k)). split; [|].
    - assert (L : List.length (map (fun i => iter es i s) (seq 0 k)) = k) by now rewrite map_length, seq_length.
      assert (Nth : forall i, (i < k)%nat -> nth i (map (fun i => iter es i s) (seq 0 k)) 0%Z = iter es i s).
      { intros i Li. rewrite nth_indep with (d' := iter es 0 s) by (rewrite L; auto).
        rewrite (map_nth (fun i => iter es i s)). now rewrite seq_nth. }
      split; [|split].
      + rewrite L. destruct (Nat.eq_dec k 1) as [->|]; [|lia].
        exfalso. apply (NL s). pose proof (next_edge es Starts s Is) as N. change (next es s) with (iter es 1 s) in N.
        now rewrite Ek in N.
      + apply (proj2 (NoDup_nth _ 0%Z)). rewrite L. intros i j Li Lj E. rewrite !Nth in E by auto.
        assert (G : forall i j, (i < j)%nat -> (j < k)%nat -> iter es i s = iter es j s -> False).
        { intros i' j' A B C. apply (Mk (j' - i')%nat); [lia|]. split; [lia|].
          apply (InjK i'); auto. rewrite <- iter_add. replace (i' + (j' - i'))%nat with j' by lia. congruence. }
        destruct (Nat.lt_trichotomy i j) as [X|[X|X]]; auto; exfalso; eauto.
      + intros e I. unfold path_edges in I. rewrite L in I. apply in_map_iff in I as (i & <- & I).
        apply in_seq in I. rewrite Nth by lia.
        assert (Q : nth (S i mod k) (map (fun i => iter es i s) (seq 0 k)) 0%Z = next es (iter es i s)).
        { destruct (Nat.eq_dec (S i) k) as [<-|Ne].
          - rewrite Nat.mod_same by lia. rewrite Nth by lia. symmetry. exact Ek.
          - rewrite Nat.mod_small by lia. now rewrite Nth by lia. }
        rewrite Q. apply next_edge; auto.
    - apply in_map_iff. exists 0%nat. split; auto. apply in_seq. lia.
  Qed.

  Lemma cycles_count : (forall a, ~ In (a, a) es) ->
    (List.length (List.concat (findCycles g)) = List.length es <-> incl (map fst es) (map snd es)).
  Proof.
    intros NL. destruct (findCycles_spec g W) as (So & Co & _ & _). pose proof cycles_nodup as ND.
    assert (Inc : incl (List.concat (findCycles g)) (map fst es)).
    { intros x I. apply in_concat in I as (c & Ic & I). apply (cycle_starts es c); auto. }
    split.
    - intros L. assert (P : Permutation (List.concat (findCycles g)) (map fst es)).
      { apply NoDup_Permutation_bis; auto. rewrite map_length. lia. }
      intros x I. apply Permutation_sym in P. apply (Permutation_in _ P) in I.
      apply in_concat in I as (c & Ic & I). apply (cycle_ends es c); auto.
    - intros H. rewrite <- (map_length fst es). apply Nat.le_antisymm.
      + now apply NoDup_incl_length.
      + apply NoDup_incl_length; auto. intros s Is. destruct (closed_on_cycle NL H s Is) as (c & Ec & I).
        destruct (Co c Ec) as (d & Id & R). apply in_concat. exists d. split; auto.
        eapply Permutation_in; [apply rotation_perm, R|auto].
  Qed.
End FunctionalGraph.

(** ** determineOpenness *)
Section Openness.
  Context {T : Type} `{Num T}.

  Lemma mget_key_mset_all (l : list (element T)) m x :
    In x (map (fun e => fst (seg_of e)) l) \/ In x (map fst m) ->
    In x (map fst (fold_left (fun m e => mset (fst (seg_of e)) e m) l m)).
  Proof.
    revert m; induction l as [|e l IH]; intros m I; cbn in *; [destruct I as [[]|I]; auto|].
    apply IH. rewrite in_keys_mset. destruct I as [[<-|I]|I]; auto.
  Qed.
  Lemma loops_fold (l : list (element T)) : (forall e, In e l -> is_segment e) -> forall g m, gwf g -> exists g',
    foldM loops_step l (g, m) = Ok (g', fold_left (fun m e => mset (fst (seg_of e)) e m) l m) /\ gwf g' /\
    getEdgesAsPairs g' = getEdgesAsPairs g ++ map seg_of l.
  Proof.
    induction l as [|e l IH]; intros S g m W.
    - exists g. cbn. rewrite app_nil_r. auto.
    - cbn [foldM]. destruct (S e (or_introl eq_refl)) as (a & b & Ev & N).
      unfold loops_step at 1. rewrite Ev. cbn [vec_at Z.ltb Z.compare Z.to_nat nth_error Pos.to_nat Pos.iter_op bind fst snd].
      unfold vec_at. cbn [Z.ltb Z.compare Z.to_nat nth_error Pos.to_nat Pos.iter_op bind fst snd].
      change (Pos.to_nat 1) with 1%nat. cbn [nth_error bind].
      destruct (addEdge_view g a b W N) as (g1 & E1 & W1 & _ & D1). rewrite E1. cbn [bind].
      destruct (IH (fun x I => S x (or_intror I)) g1 (mset a e m) W1) as (g' & E & W' & D).
      exists g'. assert (Sg : seg_of e = (a, b)) by (unfold seg_of; now rewrite Ev).
      cbn [fold_left map]. rewrite Sg. cbn [fst]. split; [exact E|]. split; auto.
      rewrite D, D1, <- app_assoc. reflexivity.
  Qed.
  Lemma mmins_length {K V} `{Ord K} (k : K) (v : V) m : List.length (mmins k v m) = S (List.length m).
  Proof.
    induction m as [|[k' v'] m IH]; cbn; auto. destruct (oltb k k'); cbn; auto.
  Qed.
  Lemma loops_emit (vm : list (Z * element T)) cs : (forall c v, In c (map snd cs) -> In v c -> In v (map fst vm)) ->
    forall res, exists res',
    foldM (fun res (ic : nat * list Z) =>
             foldM (fun res v => let* e := mat_ v vm in Ok (mmins (fst ic) e res))
                   (snd ic) res) cs res = Ok res' /\
    List.length res' = (List.length res + List.length (List.concat (map snd cs)))%nat.
  Proof.
    induction cs as [|[i c] cs IH]; intros B res.
    - exists res. cbn. split; auto.
    - cbn [foldM fst snd map concat].
      assert (In1 : exists r1, foldM (fun res v => let* e := mat_ v vm in Ok (mmins i e res)) c res = Ok r1 /\
        List.length r1 = (List.length res + List.length c)%nat).
      { assert (Bc : forall v, In v c -> In v (map fst vm)) by (intros v I; apply (B c v); [now left|auto]).
        clear -Bc. revert res; induction c as [|v c IHc]; intros res; [exists res; cbn; split; auto|].
        cbn [foldM]. unfold mat_ at 1. destruct (mget v vm) as [e|] eqn:G.
        - cbn [bind]. destruct (IHc (fun x I => Bc x (or_intror I)) (mmins i e res)) as (r1 & E & L).
          exists r1. split; auto. rewrite L, mmins_length. cbn. lia.
        - exfalso. apply mget_None in G. apply G, Bc. now left. }
      destruct In1 as (r1 & -> & L1). cbn [bind].
      destruct (IH (fun c' v I => B c' v (or_intror I)) r1) as (r' & E & L).
      exists r'. split; auto. cbn [List.concat]. rewrite L, L1, app_length. lia.
  Qed.

  Lemma elementsFormOpenLoops_spec (l : list (element T)) : (forall e, In e l -> is_segment e) ->
    NoDup (map fst (map seg_of l)) ->
    exists b, elementsFormOpenLoops l = Ok b /\ (b = false <-> segments_close (map seg_of l)).
  Proof.
    intros S ND. unfold elementsFormOpenLoops, determineClosedLoops.
    destruct (loops_fold l S empty_graph [] gwf_empty) as (g & E & W & D). rewrite E. cbn [bind fst snd].
    cbn in D. set (vm := fold_left _ l _).
    assert (B : forall c v, In c (map snd (enum (findCycles g))) -> In v c -> In v (map fst vm)).
    { intros c v Ic Iv. rewrite enum_snd in Ic. apply mget_key_mset_all. left.
      destruct (findCycles_spec g W) as (So & _). apply So in Ic.
      apply (cycle_starts (getEdgesAsPairs g) c) in Iv; auto. rewrite D, map_map in Iv. exact Iv. }
    destruct (loops_emit vm (enum (findCycles g)) B []) as (r & Er & L). rewrite Er. cbn [bind].
    eexists. split; [reflexivity|]. rewrite negb_false_iff, Nat.eqb_eq. cbn in L. rewrite enum_snd in L.
    rewrite L. assert (Ll : List.length l = List.length (getEdgesAsPairs g)) by now rewrite D, map_length.
    rewrite Ll. rewrite cycles_count; auto.
    - rewrite D. unfold segments_close, incl. split.
      + intros Q s Is. specialize (Q (fst s) (in_map fst _ _ Is)). apply in_map_iff in Q as (t & Et & It). eauto.
      + intros Q x I. apply in_map_iff in I as (s & <- & Is). destruct (Q s Is) as (t & It & Et).
        apply in_map_iff. exists t; auto.
    - now rewrite D.
    - intros a I. rewrite D in I. apply in_map_iff in I as (e & Ee & Ie). destruct (S e Ie) as (x & y & Ev & N).
      unfold seg_of in Ee. rewrite Ev in Ee. cbn in Ee. injection Ee as -> ->. contradiction.
  Qed.

  Lemma openness_spec (dbg : bool) (m : model T) obs :
    openBoundaries (mo_mats m) = obs -> obs <> [] -> (dbg = true -> List.length obs = 1%nat) ->
    (forall e, In e (m_bdr (mo_mesh m)) -> is_segment e) ->
    (forall o, In o obs -> NoDup (map fst (segments_with (mo_mesh m) (o_attr o)))) ->
    exists r, determineOpenness dbg m = Ok r /\ (r = Open \/ r = SemiOpen) /\
      (r = Open <-> exists o, In o obs /\ segments_close (segments_with (mo_mesh m) (o_attr o))).
  Proof.
    intros E NE Dbg S ND. unfold determineOpenness. rewrite E.
    assert (A : assert_ dbg (List.length obs <=? 1)%nat = Ok tt).
    { unfold assert_. destruct dbg; auto. rewrite Dbg by auto. reflexivity. }
    rewrite A. cbn [bind]. destruct obs as [|o0 obs']; [contradiction|]. cbn [List.length Nat.eqb].
    revert ND. clear -S. generalize (o0 :: obs'). clear o0 obs'.
    induction l as [|o l IH]; intros ND.
    - exists SemiOpen. split; [reflexivity|]. split; auto. split; [discriminate|]. intros (o & [] & _).
    - cbn [openness_loop].
      destruct (elementsFormOpenLoops_spec (getElementsWithAttribute (mo_mesh m) (o_attr o))) as (b & Eb & Hb).
      { intros e I. apply S. unfold getElementsWithAttribute in I. apply filter_In in I. tauto. }
      { apply (ND o). now left. }
      rewrite Eb. cbn [bind]. destruct b.
      + destruct IH as (r & Er & Or & Hr). { intros; apply ND; now right. }
        exists r. split; auto. split; auto. rewrite Hr. split.
        * intros (o' & I & C). exists o'; split; auto. now right.
        * intros (o' & [<-|I] & C); eauto. apply Hb in C. discriminate.
      + exists Open. split; [reflexivity|]. split; auto. split; auto. intros _. exists o. split; [now left|].
        now apply Hb.
  Qed.
End Openness.
