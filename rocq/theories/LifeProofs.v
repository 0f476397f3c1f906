(** Proofs for C81. *)
From Verif Require Import Prelude Lifetime SpecLife.
From Coq Require Import Permutation Lia.

(** ** A small program logic *)

(** The heap holds exactly L alive and values in S. *)
Definition owns (h : heap) (L S : list nat) : Prop :=
  Permutation (h_live h) L /\ NoDup (h_live h) /\ (forall a, In a (h_live h) -> (a < h_next h)%nat) /\
  h_set h = S /\ (forall a, In a S -> (a < h_next h)%nat).

Definition wp {A} (m : mem A) (h : heap) (Q : A -> heap -> Prop) : Prop :=
  match m h with Good (a, h') => Q a h' | Bad _ => False end.

Lemma wp_bind : forall A B (m : mem A) (f : A -> mem B) h Q,
  wp m h (fun a h' => wp (f a) h' Q) -> wp (mbind m f) h Q.
Proof.
  intros A B m f h Q H. unfold wp, mbind in *. destruct (m h) as [ [a h'] | e]; [exact H | exact H].
Qed.
Lemma wp_ret : forall A (a : A) h (Q : A -> heap -> Prop), Q a h -> wp (mret a) h Q.
Proof. intros A a h Q H. exact H. Qed.
Lemma wp_mono : forall A (m : mem A) h (P Q : A -> heap -> Prop),
  wp m h P -> (forall a h', P a h' -> Q a h') -> wp m h Q.
Proof. intros A m h P Q H HQ. unfold wp in *. destruct (m h) as [ [a h'] | e]; [apply HQ, H | exact H]. Qed.

Lemma nmem_in : forall a l, nmem a l = true <-> In a l.
Proof.
  intros a l. unfold nmem. rewrite existsb_exists. split.
  - intros (x & I & E). apply Nat.eqb_eq in E. subst x. exact I.
  - intro I. exists a. split; [exact I | apply Nat.eqb_refl].
Qed.

Lemma owns_perm : forall h L L' S, Permutation L L' -> owns h L S -> owns h L' S.
Proof. intros h L L' S P (E & R). split; [exact (Permutation_trans E P) | exact R]. Qed.
Lemma owns_nodup : forall h L S, owns h L S -> NoDup L.
Proof. intros h L S (P & N & _). exact (Permutation_NoDup P N). Qed.

Lemma wp_alloc : forall h L S (Q : nat -> heap -> Prop), owns h L S ->
  (forall a h', owns h' (a :: L) S -> ~ In a L -> ~ In a S -> Q a h') -> wp alloc h Q.
Proof.
  intros h L S Q (P & N & B & E & BS) H. unfold wp, alloc.
  assert (F : ~ In (h_next h) (h_live h)) by (intro I; apply B in I; lia).
  apply H.
  - split; [ | split; [ | split; [ | split] ] ]; simpl.
    + constructor. exact P.
    + constructor; assumption.
    + intros a [<- | I]; [lia | apply B in I; lia].
    + exact E.
    + intros a I. apply BS in I. lia.
  - intro I. apply F. exact (Permutation_in _ (Permutation_sym P) I).
  - intro I. apply BS in I. lia.
Qed.

Lemma remove_perm : forall a l, NoDup l -> In a l -> Permutation l (a :: remove Nat.eq_dec a l).
Proof.
  intros a. induction l as [ | x l IH]; intros N I; [destruct I | ].
  inversion N as [ | ? ? Nx Nl]; subst. simpl.
  destruct (Nat.eq_dec a x) as [-> | Ne].
  - rewrite notin_remove by exact Nx. apply Permutation_refl.
  - destruct I as [-> | I]; [congruence | ].
    eapply Permutation_trans; [apply perm_skip, IH; assumption | apply perm_swap].
Qed.
Lemma remove_in : forall (a b : nat) l, In b (remove Nat.eq_dec a l) -> In b l.
Proof. intros a b l I. apply in_remove in I. exact (proj1 I). Qed.
Lemma remove_nodup : forall a l, NoDup l -> NoDup (remove Nat.eq_dec a l).
Proof.
  intros a. induction l as [ | x l IH]; intro N; [constructor | ].
  inversion N as [ | ? ? Nx Nl]; subst. simpl.
  destruct (Nat.eq_dec a x); [apply IH; assumption | ].
  constructor; [intro I; apply Nx; exact (remove_in _ _ _ I) | apply IH; assumption].
Qed.

Lemma wp_free : forall h a L S (Q : unit -> heap -> Prop), owns h (a :: L) S -> (forall h', owns h' L S -> Q tt h') -> wp (free a) h Q.
Proof.
  intros h a L S Q (P & N & B & E & BS) H. unfold wp, free.
  assert (I : In a (h_live h)) by (apply (Permutation_in _ (Permutation_sym P)); left; reflexivity).
  rewrite (proj2 (nmem_in _ _) I). apply H.
  split; [ | split; [ | split; [ | split] ] ]; simpl.
  - apply (Permutation_cons_inv (a := a)).
    eapply Permutation_trans; [apply Permutation_sym, remove_perm; assumption | exact P].
  - apply remove_nodup, N.
  - intros b Ib. apply B. exact (remove_in _ _ _ Ib).
  - exact E.
  - exact BS.
Qed.

Lemma owns_in : forall h L S a, owns h L S -> In a L -> nmem a (h_live h) = true.
Proof.
  intros h L S a (P & _) I. apply nmem_in. exact (Permutation_in _ (Permutation_sym P) I).
Qed.
Lemma wp_touch : forall h a L S (Q : unit -> heap -> Prop), owns h L S -> In a L -> Q tt h -> wp (touch a) h Q.
Proof. intros h a L S Q O I H. unfold wp, touch. rewrite (owns_in _ _ _ _ O I). exact H. Qed.
Lemma wp_readv : forall h a L S (Q : unit -> heap -> Prop),
  owns h L S -> In a L -> In a S -> Q tt h -> wp (readv a) h Q.
Proof.
  intros h a L S Q O I J H. unfold wp, readv. rewrite (owns_in _ _ _ _ O I).
  destruct O as (_ & _ & _ & E & _). rewrite E. rewrite (proj2 (nmem_in _ _) J). exact H.
Qed.
Lemma wp_writev : forall h a L S (Q : unit -> heap -> Prop), owns h L S -> In a L ->
  (forall h', owns h' L (a :: S) -> Q tt h') -> wp (writev a) h Q.
Proof.
  intros h a L S Q O I H. unfold wp, writev. rewrite (owns_in _ _ _ _ O I). apply H.
  destruct O as (P & N & B & E & BS).
  split; [exact P | split; [exact N | split; [exact B | split] ] ]; simpl.
  - rewrite E. reflexivity.
  - intros b [<- | J]; [apply B; exact (Permutation_in _ (Permutation_sym P) I) | apply BS, J].
Qed.

(** Membership in lists built with :: and ++. *)
Ltac solve_in :=
  first [ assumption
        | exact (or_introl eq_refl)
        | match goal with
          | |- In _ (_ :: _) => right; solve_in
          | |- _ \/ _ => right; solve_in
          | |- In _ (_ ++ _) => apply in_or_app; first [left; solve_in | right; solve_in]
          end ].

(** One step of symbolic execution. *)
Ltac exec1 :=
  match goal with
  | |- wp (mbind _ _) _ _ => apply wp_bind
  | |- wp (mret _) _ _ => apply wp_ret
  | O : owns ?h _ _ |- wp alloc ?h _ =>
      eapply wp_alloc; [exact O | ]; clear O; let a := fresh "a" in let h' := fresh "h" in
      let O' := fresh "O" in let F := fresh "F" in let G := fresh "G" in intros a h' O' F G
  | O : owns ?h _ _ |- wp (touch _) ?h _ => eapply wp_touch; [exact O | cbn; solve_in | ]
  | O : owns ?h _ _ |- wp (readv _) ?h _ => eapply wp_readv; [exact O | cbn; solve_in | cbn; solve_in | ]
  | O : owns ?h _ _ |- wp (writev _) ?h _ =>
      eapply wp_writev; [exact O | cbn; solve_in | ]; clear O; let h' := fresh "h" in
      let O' := fresh "O" in intros h' O'
  end; cbv beta iota.

(** ** What an object owns *)

Definition form_cells (f : form) : list nat := map in_at (fo_integrators f) ++ [fo_at f].
Definition space_cells (s : space) : list nat := [sp_collection s; sp_at s].
(** in the order of the destructor *)
Definition cells (o : solver_object) : list nat :=
  [o_phi o] ++ form_cells (o_rhod o) ++ [o_d o; o_e o; o_sigma o] ++ form_cells (o_grad o) ++
  form_cells (o_divEpsGrad o) ++ form_cells (o_hDivMass o) ++ form_cells (o_hCurlHDivEps o) ++
  form_cells (o_h1SurfMass o) ++ space_cells (o_h1 o) ++ space_cells (o_nd o) ++
  space_cells (o_rt o) ++ space_cells (o_l2 o) ++ [o_eps o].
Definition solution_cells (q : solution_object) : list nat := [q_d q; q_e q; q_phi q].

Lemma form_at : forall f, In (fo_at f) (form_cells f).
Proof. intro f. unfold form_cells. apply in_or_app. right. left. reflexivity. Qed.

Lemma delete_form_ok : forall f h L S (Q : unit -> heap -> Prop), owns h (form_cells f ++ L) S ->
  (forall h', owns h' L S -> Q tt h') -> wp (delete_form f) h Q.
Proof.
  intros f h L S Q O H. unfold delete_form. apply wp_bind.
  unfold form_cells in O. rewrite <- app_assoc in O. revert h O.
  induction (fo_integrators f) as [ | i l IH]; intros h O.
  - cbn [each]. apply wp_ret. eapply wp_free; [exact O | exact H].
  - cbn [each]. apply wp_bind. eapply wp_free; [exact O | ].
    intros h' O'. apply IH. exact O'.
Qed.
Lemma delete_space_ok : forall s h L S (Q : unit -> heap -> Prop), owns h (space_cells s ++ L) S ->
  (forall h', owns h' L S -> Q tt h') -> wp (delete_space s) h Q.
Proof.
  intros s h L S Q O H. unfold delete_space. apply wp_bind. eapply wp_free; [exact O | ].
  intros h' O'. eapply wp_free; [exact O' | exact H].
Qed.

Lemma destroy_ok : forall o h L S, owns h (cells o ++ L) S ->
  wp (destroy o) h (fun _ h' => owns h' L S).
Proof.
  intros o h L S O. unfold cells in O. rewrite <- !app_assoc in O. unfold destroy.
  apply wp_bind. eapply wp_free; [exact O | ]. clear h O; intros h O.
  apply wp_bind. eapply delete_form_ok; [exact O | ]. clear h O; intros h O.
  do 3 (apply wp_bind; eapply wp_free; [exact O | ]; clear h O; intros h O).
  do 5 (apply wp_bind; eapply delete_form_ok; [exact O | ]; clear h O; intros h O).
  do 4 (apply wp_bind; eapply delete_space_ok; [exact O | ]; clear h O; intros h O).
  eapply wp_free; [exact O | ]. intros h' O'. exact O'.
Qed.

Lemma delete_solution_ok : forall q h L S, owns h (solution_cells q ++ L) S ->
  wp (delete_solution q) h (fun _ h' => owns h' L S).
Proof.
  intros q h L S O. unfold delete_solution.
  apply wp_bind. eapply wp_free; [exact O | ]. clear h O; intros h O.
  apply wp_bind. eapply wp_free; [exact O | ]. clear h O; intros h O.
  eapply wp_free; [exact O | ]. intros h' O'. exact O'.
Qed.

(** ** The constructor *)

(** Permutations of explicit lists *)
Ltac split_at a r :=
  match r with
  | a :: ?r2 => constr:((@nil nat, r2))
  | ?b :: ?r1 => let p := split_at a r1 in
                 match p with (?l1, ?l2) => constr:((b :: l1, l2)) end
  end.
Ltac perm_step :=
  match goal with
  | |- Permutation (?a :: _) ?r =>
      let p := split_at a r in
      match p with (?l1, ?l2) => change r with (l1 ++ a :: l2); apply Permutation_cons_app; cbn [app] end
  end.
Ltac solve_perm := cbn; repeat perm_step; apply Permutation_refl.

(** A fresh cell is none of the older ones and holds nothing. *)
Ltac solve_fresh :=
  cbn; intros [E | [E | E] ];
  match goal with
  | F : ~ In _ _ |- False => solve [apply F; exact E]
  | F : ~ In ?a _ |- False =>
      match type of E with
      | a = _ => solve [apply F; rewrite E; solve_in]
      | _ = a => solve [apply F; rewrite <- E; solve_in]
      end
  end.

Definition fresh_object (o : solver_object) (mesh : nat) (h : heap) (L S : list nat) : Prop :=
  o_mesh o = mesh /\ owns h (cells o ++ L) (o_sigma o :: fo_at (o_rhod o) :: S) /\
  ~ In (o_phi o) (o_sigma o :: fo_at (o_rhod o) :: S) /\
  ~ In (o_e o) (o_sigma o :: fo_at (o_rhod o) :: S) /\ ~ In (o_d o) (o_sigma o :: fo_at (o_rhod o) :: S).

Lemma construct_ok : forall mesh open h L S, owns h L S -> In mesh L ->
  wp (construct mesh open Completes) h
     (fun r h' => exists o, r = Some o /\ fresh_object o mesh h' L S).
Proof.
  intros mesh open h L S O Im. unfold construct, new_space, new_form, add_integrator.
  destruct open.
  - repeat exec1.
    unfold assemble, touch_space; cbn [each fo_integrators fo_at in_at in_coef sp_at sp_collection].
    repeat exec1.
    match goal with
    | O' : owns ?h0 ?l _ |- wp (free ?a) ?h0 _ =>
        let p := split_at a l in
        match p with (?l1, ?l2) =>
          eapply (wp_free h0 a (l1 ++ l2));
            [refine (owns_perm _ _ _ _ _ O');
             apply Permutation_sym; change l with (l1 ++ a :: l2); apply Permutation_middle | ]
        end
    end.
    intros h' O'. cbn [app] in O'. repeat exec1.
    eexists. split; [reflexivity | ]. split; [reflexivity | ]. split; [ | cbn; repeat split].
    + cbn. refine (owns_perm _ _ _ _ _ O'). solve_perm.
    + solve_fresh.
    + solve_fresh.
    + solve_fresh.
  - repeat exec1.
    unfold assemble, touch_space; cbn [each fo_integrators fo_at in_at in_coef sp_at sp_collection].
    repeat exec1.
    eexists. split; [reflexivity | ]. split; [reflexivity | ]. split; [ | cbn; repeat split].
    + cbn. match goal with O' : owns ?h0 _ _ |- owns ?h0 _ _ => refine (owns_perm _ _ _ _ _ O') end. solve_perm.
    + solve_fresh.
    + solve_fresh.
    + solve_fresh.
Qed.

Lemma construct_throws : forall mesh open (c : bool) h L S, owns h L S -> In mesh L ->
  wp (construct mesh open (if c then ThrowsOnOpen else ThrowsOnDirichlet)) h
     (fun r h' => r = None /\ exists K, List.length K = (if c then 11 else 8)%nat /\ owns h' (K ++ L) S).
Proof.
  intros mesh open c h L S O Im. unfold construct, new_space, new_form, add_integrator.
  destruct c; cbn beta iota.
  - repeat exec1. split; [reflexivity | ].
    match goal with O' : owns ?h0 ?l S |- _ =>
      match l with ?a1 :: ?a2 :: ?a3 :: ?a4 :: ?a5 :: ?a6 :: ?a7 :: ?a8 :: ?a9 :: ?a10 :: ?a11 :: L =>
        exists [a1; a2; a3; a4; a5; a6; a7; a8; a9; a10; a11]; split; [reflexivity | exact O'] end end.
  - repeat exec1. split; [reflexivity | ].
    match goal with O' : owns ?h0 ?l S |- _ =>
      match l with ?a1 :: ?a2 :: ?a3 :: ?a4 :: ?a5 :: ?a6 :: ?a7 :: ?a8 :: L =>
        exists [a1; a2; a3; a4; a5; a6; a7; a8]; split; [reflexivity | exact O'] end end.
Qed.

(** ** The members of a solver *)

(** A live solver in a heap: its cells and its mesh are alive and its source is initialised. *)
Definition usable (o : solver_object) (L S : list nat) : Prop :=
  incl (cells o) L /\ In (o_sigma o) S.
Definition has_fields (o : solver_object) (S : list nat) : Prop :=
  In (o_phi o) S /\ In (o_e o) S /\ In (o_d o) S.

Lemma cells_in : forall o,
  In (o_phi o) (cells o) /\ In (o_e o) (cells o) /\ In (o_d o) (cells o) /\ In (o_sigma o) (cells o) /\
  In (o_eps o) (cells o) /\
  In (fo_at (o_rhod o)) (cells o) /\ In (fo_at (o_grad o)) (cells o) /\
  In (fo_at (o_divEpsGrad o)) (cells o) /\ In (fo_at (o_hDivMass o)) (cells o) /\
  In (fo_at (o_hCurlHDivEps o)) (cells o) /\ In (fo_at (o_h1SurfMass o)) (cells o) /\
  In (sp_at (o_h1 o)) (cells o) /\ In (sp_collection (o_h1 o)) (cells o) /\
  In (sp_at (o_nd o)) (cells o) /\ In (sp_collection (o_nd o)) (cells o) /\
  In (sp_at (o_rt o)) (cells o) /\ In (sp_collection (o_rt o)) (cells o).
Proof.
  intro o. pose proof (form_at (o_rhod o)). pose proof (form_at (o_grad o)).
  pose proof (form_at (o_divEpsGrad o)). pose proof (form_at (o_hDivMass o)).
  pose proof (form_at (o_hCurlHDivEps o)). pose proof (form_at (o_h1SurfMass o)).
  unfold cells, space_cells. repeat (split; [solve_in | ]). solve_in.
Qed.

Ltac get_cells o U :=
  let Hc := fresh "Hc" in let I := fresh "I" in
  destruct U as (Hc & I);
  pose proof (cells_in o) as CI;
  destruct CI as (C1 & C2 & C3 & C4 & C5 & C6 & C7 & C8 & C9 & C10 & C11 & C12 & C13 & C14 & C15 & C16 & C17);
  apply Hc in C1, C2, C3, C4, C5, C6, C7, C8, C9, C10, C11, C12, C13, C14, C15, C16, C17.

Lemma solve_ok : forall o h L S, owns h L S -> usable o L S -> In (o_mesh o) L ->
  wp (solve o) h (fun _ h' => exists S', owns h' L S' /\ incl S S' /\ has_fields o S').
Proof.
  intros o h L S O U Im. get_cells o U. unfold solve, touch_space. repeat exec1.
  eexists. split; [eassumption | ]. split.
  - intros a Ia. do 5 right. exact Ia.
  - unfold has_fields. repeat split; solve_in.
Qed.

Lemma set_neumann_ok : forall o h L S, owns h L S -> usable o L S -> In (o_mesh o) L ->
  wp (set_neumann o) h (fun _ h' => exists S', owns h' L S' /\ incl S S').
Proof.
  intros o h L S O U Im. get_cells o U. unfold set_neumann, touch_space. repeat exec1.
  eexists. split; [eassumption | ]. intros a Ia. right. exact Ia.
Qed.

Ltac free_any :=
  match goal with
  | O : owns ?h ?l _ |- wp (free ?a) ?h _ =>
      let p := split_at a l in
      match p with (?l1, ?l2) =>
        eapply (wp_free h a (l1 ++ l2));
          [refine (owns_perm _ _ _ _ _ O); apply Permutation_sym; change l with (l1 ++ a :: l2);
           apply Permutation_middle | ]
      end; clear O; let h' := fresh "h" in let O' := fresh "O" in intros h' O'; cbn [app] in O'; cbv beta iota
  end.

Lemma local_form_ok : forall o sp field h L S, owns h L S -> In (o_mesh o) L ->
  In (sp_at sp) L -> In (sp_collection sp) L -> In field L -> In field S ->
  wp (local_form o sp field) h (fun _ h' => owns h' L S).
Proof.
  intros o sp field h L S O Im I1 I2 I3 I4.
  unfold local_form, new_form, add_integrator. repeat exec1.
  unfold assemble, touch_space; cbn [each fo_integrators fo_at in_at in_coef sp_at sp_collection].
  repeat exec1. unfold delete_form; cbn [each fo_integrators fo_at in_at].
  repeat first [exec1 | free_any]. assumption.
Qed.
Lemma boundary_integrator_ok : forall o sp h L S, owns h L S -> In (o_mesh o) L ->
  In (sp_at sp) L -> In (sp_collection sp) L ->
  wp (boundary_integrator o sp) h (fun f h' => owns h' (form_cells f ++ L) S).
Proof.
  intros o sp h L S O Im I1 I2.
  unfold boundary_integrator, new_form, add_integrator. repeat exec1.
  unfold assemble, touch_space; cbn [each fo_integrators fo_at in_at in_coef sp_at sp_collection].
  repeat first [exec1 | free_any]. assumption.
Qed.

Lemma get_ok : forall o g h L S, owns h L S -> usable o L S -> In (o_mesh o) L -> has_fields o S ->
  wp (get o g) h (fun _ h' => owns h' L S).
Proof.
  intros o g h L S O U Im (P1 & P2 & P3). get_cells o U.
  assert (B : forall sp field, In (sp_at sp) L -> In (sp_collection sp) L -> In field L -> In field S ->
    wp (let! f := boundary_integrator o sp in do! touch (fo_at f); do! readv field; delete_form f) h
       (fun _ h' => owns h' L S)).
  { intros sp field J1 J2 J3 J4. apply wp_bind.
    eapply wp_mono; [exact (boundary_integrator_ok o sp h L S O Im J1 J2) | ].
    intros f h' O'. cbv beta in O'.
    apply wp_bind. eapply wp_touch; [exact O' | apply in_or_app; left; apply form_at | ].
    apply wp_bind. eapply wp_readv; [exact O' | apply in_or_app; right; exact J3 | exact J4 | ].
    eapply delete_form_ok; [exact O' | ]. intros h2 O2. exact O2. }
  destruct g; unfold get.
  - apply local_form_ok; assumption.
  - apply B; assumption.
  - apply local_form_ok; assumption.
  - apply local_form_ok; assumption.
  - apply B; assumption.
  - exec1. exec1. apply local_form_ok; assumption.
  - unfold touch_space. repeat exec1. exact O.
Qed.

Lemma get_solution_ok : forall o h L S, owns h L S -> usable o L S -> has_fields o S ->
  wp (get_solution o) h (fun q h' => exists S', owns h' (solution_cells q ++ L) S' /\ incl S S' /\
                                      incl (solution_cells q) S').
Proof.
  intros o h L S O U (P1 & P2 & P3). get_cells o U.
  unfold get_solution, clone, touch_space. repeat exec1.
  eexists. split; [eassumption | ]. split.
  - intros b Ib. do 3 right. exact Ib.
  - intros b Ib. cbn in Ib |- *. tauto.
Qed.
Lemma set_solution_ok : forall o q h L S, owns h L S -> usable o L S ->
  incl (solution_cells q) L -> incl (solution_cells q) S ->
  wp (set_solution o q) h (fun _ h' => exists S', owns h' L S' /\ incl S S' /\ has_fields o S').
Proof.
  intros o q h L S O U QL QS. get_cells o U.
  assert (J1 : In (q_phi q) L) by (apply QL; cbn; tauto). assert (J2 : In (q_e q) L) by (apply QL; cbn; tauto).
  assert (J3 : In (q_d q) L) by (apply QL; cbn; tauto).
  assert (K1 : In (q_phi q) S) by (apply QS; cbn; tauto). assert (K2 : In (q_e q) S) by (apply QS; cbn; tauto).
  assert (K3 : In (q_d q) S) by (apply QS; cbn; tauto).
  unfold set_solution, copy_values. repeat exec1.
  eexists. split; [eassumption | ]. split.
  - intros b Ib. do 3 right. exact Ib.
  - unfold has_fields. repeat split; solve_in.
Qed.
Lemma add_solution_ok : forall o q h L S, owns h L S -> usable o L S -> has_fields o S ->
  incl (solution_cells q) L -> incl (solution_cells q) S ->
  wp (add_solution o q) h (fun _ h' => exists S', owns h' L S' /\ incl S S').
Proof.
  intros o q h L S O U (P1 & P2 & P3) QL QS. get_cells o U.
  assert (J1 : In (q_phi q) L) by (apply QL; cbn; tauto). assert (J2 : In (q_e q) L) by (apply QL; cbn; tauto).
  assert (J3 : In (q_d q) L) by (apply QL; cbn; tauto).
  assert (K1 : In (q_phi q) S) by (apply QS; cbn; tauto). assert (K2 : In (q_e q) S) by (apply QS; cbn; tauto).
  assert (K3 : In (q_d q) S) by (apply QS; cbn; tauto).
  unfold add_solution, add_values. repeat exec1.
  eexists. split; [eassumption | ]. intros b Ib. do 3 right. exact Ib.
Qed.

(** ** Names *)

Lemma wp_inv : forall A (m : mem A) h Q, wp m h Q -> exists a h', m h = Good (a, h') /\ Q a h'.
Proof.
  intros A m h Q H. unfold wp in H. destruct (m h) as [ [a h'] | e]; [ | destruct H].
  exists a, h'. split; [reflexivity | exact H].
Qed.

Section Names.
  Context {A : Type}.
  Implicit Types l : list (nat * A).
  Lemma find_in : forall x a l, find_name x l = Some a -> In (x, a) l.
  Proof.
    intros x a. induction l as [ | [y b] l IH]; intro E; [discriminate | ]. simpl in E.
    destruct (Nat.eqb_spec y x) as [-> | Ne]; [injection E as ->; left; reflexivity | right; apply IH, E].
  Qed.
  Lemma in_find : forall x a l, NoDup (names l) -> In (x, a) l -> find_name x l = Some a.
  Proof.
    intros x a. induction l as [ | [y b] l IH]; intros N I; [destruct I | ].
    simpl in N. inversion N as [ | ? ? Ny Nl]; subst. simpl.
    destruct I as [E | I].
    - injection E as -> ->. rewrite Nat.eqb_refl. reflexivity.
    - destruct (Nat.eqb_spec y x) as [-> | Ne]; [ | apply IH; assumption].
      exfalso. apply Ny. apply (in_map fst) in I. exact I.
  Qed.
  Lemma in_names : forall x l, In x (names l) -> exists a, In (x, a) l.
  Proof.
    intros x l I. unfold names in I. apply in_map_iff in I. destruct I as ([y a] & E & I).
    simpl in E. subst y. exists a. exact I.
  Qed.
  Lemma drop_fresh : forall x l, ~ In x (names l) -> drop_name x l = l.
  Proof.
    intros x. induction l as [ | [y b] l IH]; intro F; [reflexivity | ]. simpl in F |- *.
    destruct (Nat.eqb_spec y x) as [-> | Ne]; [exfalso; apply F; left; reflexivity | ].
    simpl. f_equal. apply IH. intro I. apply F. right. exact I.
  Qed.
  Lemma drop_perm : forall x a l, NoDup (names l) -> find_name x l = Some a ->
    Permutation l ((x, a) :: drop_name x l).
  Proof.
    intros x a. induction l as [ | [y b] l IH]; intros N E; [discriminate | ].
    simpl in N. inversion N as [ | ? ? Ny Nl]; subst. simpl in E |- *.
    destruct (Nat.eqb_spec y x) as [-> | Ne].
    - injection E as ->. simpl. change (filter _ l) with (drop_name x l).
      rewrite (drop_fresh x l Ny). apply Permutation_refl.
    - simpl. eapply Permutation_trans; [apply perm_skip, IH; assumption | apply perm_swap].
  Qed.
  Lemma names_drop : forall x l, names (drop_name x l) = without x (names l).
  Proof.
    intros x. induction l as [ | [y b] l IH]; [reflexivity | ]. simpl.
    destruct (y =? x)%nat; simpl; [exact IH | f_equal; exact IH].
  Qed.
  Lemma find_drop : forall x y l, y <> x -> find_name y (drop_name x l) = find_name y l.
  Proof.
    intros x y l Ne. induction l as [ | [z b] l IH]; [reflexivity | ]. simpl.
    destruct (Nat.eqb_spec z x) as [-> | N1]; simpl.
    - rewrite IH. destruct (Nat.eqb_spec x y) as [-> | _]; [congruence | reflexivity].
    - rewrite IH. reflexivity.
  Qed.
End Names.

Lemma nodup_without : forall x l, NoDup l -> NoDup (without x l).
Proof. intros x l N. apply NoDup_filter, N. Qed.

(** ** The invariant *)

(** What a solver in scope is known to have. *)
Definition solver_ok (meshes : list (nat * nat)) (S : list nat)
    (p : nat * solver_object) (s : nat * (option nat * bool)) : Prop :=
  fst p = fst s /\ In (o_sigma (snd p)) S /\
  (forall m, fst (snd s) = Some m -> In (m, o_mesh (snd p)) meshes) /\
  (snd (snd s) = true -> has_fields (snd p) S).

Definition all_cells (w : world) : list nat :=
  map snd (w_meshes w) ++ flat_map (fun p => cells (snd p)) (w_solvers w) ++
  flat_map (fun p => solution_cells (snd p)) (w_solutions w).

Definition inv (w : world) (sc : scope) (K : list nat) : Prop := exists S,
  owns (w_heap w) (K ++ all_cells w) S /\
  names (w_meshes w) = sc_meshes sc /\ names (w_solutions w) = sc_solutions sc /\
  Forall2 (solver_ok (w_meshes w) S) (w_solvers w) (sc_solvers sc) /\
  (forall q, In q (w_solutions w) -> incl (solution_cells (snd q)) S) /\
  NoDup (sc_meshes sc) /\ NoDup (names (sc_solvers sc)) /\ NoDup (sc_solutions sc).

Lemma solver_ok_mono : forall M S S' p s, incl S S' -> solver_ok M S p s -> solver_ok M S' p s.
Proof.
  intros M S S' p s I (E & Sg & Hm & Hf). split; [exact E | split; [apply I, Sg | split; [exact Hm | ] ] ].
  intro Et. destruct (Hf Et) as (A & B & C). repeat split; apply I; assumption.
Qed.
Lemma Forall2_mono : forall A B (P Q : A -> B -> Prop) l m,
  (forall a b, In a l -> In b m -> P a b -> Q a b) -> Forall2 P l m -> Forall2 Q l m.
Proof.
  intros A B P Q l m H F. induction F as [ | a b l m Pab F IH]; constructor.
  - apply H; [left; reflexivity | left; reflexivity | exact Pab].
  - apply IH. intros a' b' Ia Ib. apply H; right; assumption.
Qed.
Lemma solvers_names : forall M S l ss, Forall2 (solver_ok M S) l ss -> names l = names ss.
Proof.
  intros M S l ss F. induction F as [ | a b l m Pab F IH]; [reflexivity | ].
  simpl. f_equal; [exact (proj1 Pab) | exact IH].
Qed.
Lemma Forall2_in : forall A B (P : A -> B -> Prop) l m b, Forall2 P l m -> In b m ->
  exists a, In a l /\ P a b.
Proof.
  intros A B P l m b F. induction F as [ | a c l m Pac F IH]; intro I; [destruct I | ].
  destruct I as [<- | I]; [exists a; split; [left; reflexivity | exact Pac] | ].
  destruct (IH I) as (a' & Ia & Pa). exists a'. split; [right; exact Ia | exact Pa].
Qed.
(** The object of a solver in scope. *)
Lemma solver_object_of : forall M S l ss x v, Forall2 (solver_ok M S) l ss -> NoDup (names ss) ->
  In (x, v) ss -> exists o, find_name x l = Some o /\ In (x, o) l /\ solver_ok M S (x, o) (x, v).
Proof.
  intros M S l ss x v F N I. destruct (Forall2_in _ _ _ _ _ _ F I) as ([y o] & Io & P).
  pose proof (proj1 P) as E. simpl in E. subst y. exists o.
  split; [ | split; [exact Io | exact P] ].
  apply in_find; [rewrite (solvers_names _ _ _ _ F); exact N | exact Io].
Qed.
Lemma solver_cells : forall w (x : nat) o, In (x, o) (w_solvers w) -> incl (cells o) (all_cells w).
Proof.
  intros w x o I a Ia. unfold all_cells. apply in_or_app. right. apply in_or_app. left.
  apply in_flat_map. exists (x, o). split; [exact I | exact Ia].
Qed.
Lemma solution_in : forall w (x : nat) q, In (x, q) (w_solutions w) -> incl (solution_cells q) (all_cells w).
Proof.
  intros w x q I a Ia. unfold all_cells. apply in_or_app. right. apply in_or_app. right.
  apply in_flat_map. exists (x, q). split; [exact I | exact Ia].
Qed.
Lemma mesh_in : forall w (m : nat) a, In (m, a) (w_meshes w) -> In a (all_cells w).
Proof. intros w m a I. unfold all_cells. apply in_or_app. left. apply (in_map snd) in I. exact I. Qed.

(** Several objects have the name x only if the names repeat. *)
Lemma same_value : forall A (l : list (nat * A)) x a b, NoDup (names l) -> In (x, a) l -> In (x, b) l -> a = b.
Proof.
  intros A l x a b N Ia Ib. pose proof (in_find x a l N Ia) as Ea. pose proof (in_find x b l N Ib) as Eb.
  congruence.
Qed.

Lemma names_map : forall A B (f : nat * A -> nat * B) l, (forall p, fst (f p) = fst p) ->
  names (map f l) = names l.
Proof. intros A B f l H. unfold names. rewrite map_map. apply map_ext. exact H. Qed.
Lemma fst_filled : forall x s, fst (filled x s) = fst s.
Proof. intros x [y v]. unfold filled. simpl. destruct (Nat.eqb_spec y x); [symmetry; assumption | reflexivity]. Qed.
Lemma fst_orphan : forall m s, fst (orphan m s) = fst s.
Proof. intros m [y [ [m'|] i] ]; simpl; [destruct (m' =? m)%nat; reflexivity | reflexivity]. Qed.

Lemma Forall2_map_r : forall A B C (P : A -> C -> Prop) (f : B -> C) l m,
  Forall2 (fun a b => P a (f b)) l m -> Forall2 P l (map f m).
Proof. intros A B C P f l m F. induction F; constructor; assumption. Qed.

Lemma in_K : forall (K L : list nat) a, In a L -> In a (K ++ L).
Proof. intros K L a I. apply in_or_app. right. exact I. Qed.

Lemma app_swap : forall a k m c q : list nat,
  Permutation (a ++ k ++ m ++ c ++ q) (k ++ m ++ c ++ a ++ q).
Proof.
  intros a k m c q. replace (k ++ m ++ c ++ q) with ((k ++ m ++ c) ++ q) by (rewrite <- !app_assoc; reflexivity).
  replace (k ++ m ++ c ++ a ++ q) with ((k ++ m ++ c) ++ a ++ q) by (rewrite <- !app_assoc; reflexivity).
  rewrite !(app_assoc _ _ q). apply Permutation_app_tail, Permutation_app_comm.
Qed.

(** A member function that leaves the cells alone and fills the fields of x. *)
Lemma fill_inv : forall w ms ss qs K S x S' h' o,
  owns (w_heap w) (K ++ all_cells w) S ->
  names (w_meshes w) = ms -> names (w_solutions w) = qs ->
  Forall2 (solver_ok (w_meshes w) S) (w_solvers w) ss ->
  (forall q, In q (w_solutions w) -> incl (solution_cells (snd q)) S) ->
  NoDup ms -> NoDup (names ss) -> NoDup qs ->
  find_name x (w_solvers w) = Some o ->
  owns h' (K ++ all_cells w) S' -> incl S S' -> has_fields o S' ->
  inv (with_heap w h') {| sc_meshes := ms; sc_solvers := map (filled x) ss; sc_solutions := qs |} K.
Proof.
  intros w ms ss qs K S x S' h' o O Em Eq F Q N1 N2 N3 Fo O' I Hf.
  exists S'. split; [exact O' | ]. split; [exact Em | ]. split; [exact Eq | ]. split.
  - simpl. apply Forall2_map_r.
    assert (Nl : NoDup (names (w_solvers w))) by (rewrite (solvers_names _ _ _ _ F); exact N2).
    apply (Forall2_mono _ _ (solver_ok (w_meshes w) S)); [ | exact F].
    intros [y o'] [z v] Ia Ib P. destruct P as (E & Sg & Hm & Hi). simpl in *. subst z.
    unfold filled. simpl. destruct (Nat.eqb_spec y x) as [-> | Ne].
    + assert (o' = o) as -> by exact (same_value _ _ x o' o Nl Ia (find_in _ _ _ Fo)).
      split; [reflexivity | split; [apply I, Sg | split; [exact Hm | intros _; exact Hf] ] ].
    + apply (solver_ok_mono _ S); [exact I | ].
      split; [reflexivity | split; [exact Sg | split; assumption] ].
  - split; [intros q Iq a Ia; apply I; exact (Q q Iq a Ia) | ].
    split; [exact N1 | split; [ | exact N3] ]. cbn [sc_solvers]. rewrite names_map; [exact N2 | apply fst_filled].
Qed.
(** A member function that leaves the scope alone. *)
Lemma keep_inv : forall w ms ss qs K S S' h',
  names (w_meshes w) = ms -> names (w_solutions w) = qs ->
  Forall2 (solver_ok (w_meshes w) S) (w_solvers w) ss ->
  (forall q, In q (w_solutions w) -> incl (solution_cells (snd q)) S) ->
  NoDup ms -> NoDup (names ss) -> NoDup qs ->
  owns h' (K ++ all_cells w) S' -> incl S S' ->
  inv (with_heap w h') {| sc_meshes := ms; sc_solvers := ss; sc_solutions := qs |} K.
Proof.
  intros w ms ss qs K S S' h' Em Eq F Q N1 N2 N3 O' I.
  exists S'. split; [exact O' | ]. split; [exact Em | ]. split; [exact Eq | ]. split.
  - apply (Forall2_mono _ _ (solver_ok (w_meshes w) S)); [ | exact F].
    intros a b _ _ P. exact (solver_ok_mono _ _ _ _ _ I P).
  - split; [intros q Iq a Ia; apply I; exact (Q q Iq a Ia) | ]. split; [exact N1 | split; assumption].
Qed.

Theorem step_ok : forall w sc K c sc', inv w sc K -> allowed sc c sc' ->
  exists w' K', exec w c = Good w' /\ inv w' sc' (K' ++ K) /\ List.length K' = left_behind c.
Proof.
  intros w sc K c sc' (S & O & Em & Eq & F & Q & N1 & N2 & N3) Al.
  assert (Nm : NoDup (names (w_meshes w))) by (rewrite Em; exact N1).
  assert (Nq : NoDup (names (w_solutions w))) by (rewrite Eq; exact N3).
  assert (Nl : NoDup (names (w_solvers w))) by (rewrite (solvers_names _ _ _ _ F); exact N2).
  inversion Al as [ms ss qs m Fr | ms ss qs m I | ms ss qs x m open I Fr | ms ss qs m c' I
    | ms ss qs x m i I | ms ss qs x I | ms ss qs x m i I | ms ss qs x m g I
    | ms ss qs x m q I Fr | ms ss qs x q I Iq | ms ss qs x m q I Iq | ms ss qs q I | ms ss qs x I];
    subst sc sc' c; cbn [sc_meshes sc_solvers sc_solutions] in *.
  - (* NewMesh *)
    destruct (wp_inv _ _ _ _ (wp_alloc _ _ _ (fun a h' => owns h' (a :: K ++ all_cells w) S) O
               (fun a h' O' _ _ => O'))) as (a & h' & E & O').
    exists {| w_heap := h'; w_meshes := (m, a) :: w_meshes w;
              w_solvers := w_solvers w; w_solutions := w_solutions w |}, [].
    split; [unfold exec; rewrite E; reflexivity | split; [ | reflexivity] ].
    exists S. split; [refine (owns_perm _ _ _ _ _ O'); apply Permutation_middle | ].
    split; [simpl; f_equal; exact Em | split; [exact Eq | split; [ | split; [exact Q | ] ] ] ].
    + apply (Forall2_mono _ _ (solver_ok (w_meshes w) S)); [ | exact F].
      intros p s _ _ (E1 & E2 & E3 & E4). split; [exact E1 | split; [exact E2 | split; [ | exact E4] ] ].
      intros m' Em'. right. apply E3, Em'.
    + split; [constructor; assumption | split; assumption].
  - (* DeleteMesh *)
    rewrite <- Em in I. destruct (in_names _ _ I) as (a & Ia).
    pose proof (in_find _ _ _ Nm Ia) as Fa.
    assert (P : Permutation (K ++ all_cells w)
      (a :: K ++ all_cells {| w_heap := w_heap w; w_meshes := drop_name m (w_meshes w);
                              w_solvers := w_solvers w; w_solutions := w_solutions w |})).
    { unfold all_cells; cbn [w_meshes w_solvers w_solutions].
      eapply Permutation_trans; [ | apply Permutation_sym, Permutation_middle].
      apply Permutation_app_head.
      apply (Permutation_app_tail _ (Permutation_map snd (drop_perm m a _ Nm Fa))). }
    destruct (wp_inv _ _ _ _ (wp_free _ _ _ _ (fun _ h' => owns h' _ S) (owns_perm _ _ _ _ P O)
               (fun h' O' => O'))) as ([] & h' & E & O').
    exists {| w_heap := h'; w_meshes := drop_name m (w_meshes w);
              w_solvers := w_solvers w; w_solutions := w_solutions w |}, [].
    split; [unfold exec; rewrite Fa, E; reflexivity | split; [ | reflexivity] ].
    exists S. split; [exact O' | ].
    split; [cbn [w_meshes sc_meshes]; rewrite names_drop; f_equal; exact Em | ].
    split; [exact Eq | split; [ | split; [exact Q | ] ] ].
    + cbn [w_meshes w_solvers sc_solvers]. apply Forall2_map_r.
      apply (Forall2_mono _ _ (solver_ok (w_meshes w) S)); [ | exact F].
      intros [y o] [z [om i] ] _ _ (E1 & E2 & E3 & E4). simpl in E1. subst z.
      split; [rewrite fst_orphan; reflexivity | split; [exact E2 | split] ].
      * intros m' Em'. destruct om as [m2 | ]; simpl in Em'; [ | discriminate].
        destruct (Nat.eqb_spec m2 m) as [-> | Ne]; simpl in Em'; [discriminate | ].
        injection Em' as <-. unfold drop_name. apply filter_In. split; [apply E3; reflexivity | ].
        simpl. rewrite (proj2 (Nat.eqb_neq _ _) Ne). reflexivity.
      * intro Ei. apply E4. destruct om as [m2 | ]; simpl in Ei |- *; [destruct (m2 =? m)%nat | ]; exact Ei.
    + cbn [sc_meshes sc_solvers sc_solutions]. split; [apply nodup_without, N1 | split; [ | exact N3] ].
      rewrite names_map; [exact N2 | apply fst_orphan].
  - (* NewSolver *)
    rewrite <- Em in I. destruct (in_names _ _ I) as (a & Ia). pose proof (in_find _ _ _ Nm Ia) as Fa.
    destruct (wp_inv _ _ _ _ (construct_ok a open _ _ _ O (in_K _ _ _ (mesh_in w m a Ia))))
      as (r & h' & E & o & -> & Eo & O' & Fp & Fe & Fd).
    exists {| w_heap := h'; w_meshes := w_meshes w; w_solvers := (x, o) :: w_solvers w;
              w_solutions := w_solutions w |}, [].
    split; [unfold exec; rewrite Fa, E; reflexivity | split; [ | reflexivity] ].
    eexists. split; [refine (owns_perm _ _ _ _ _ O') | ].
    { unfold all_cells; cbn [w_meshes w_solvers w_solutions flat_map snd app].
      rewrite !app_assoc. apply Permutation_app_tail. rewrite <- !app_assoc.
      apply (Permutation_trans (l' := (K ++ cells o) ++ map snd (w_meshes w) ++
               flat_map (fun p => cells (snd p)) (w_solvers w))).
      - rewrite app_assoc. apply Permutation_app_tail, Permutation_app_comm.
      - rewrite <- app_assoc. apply Permutation_app_head. rewrite !app_assoc.
        apply Permutation_app_tail, Permutation_app_comm. }
    split; [exact Em | split; [exact Eq | split; [ | split] ] ].
    + cbn [w_meshes w_solvers sc_solvers]. constructor.
      * split; [reflexivity | split; [left; reflexivity | split] ].
        -- simpl. intros m' Em'. injection Em' as <-. rewrite Eo. exact Ia.
        -- simpl. intro D. discriminate D.
      * apply (Forall2_mono _ _ (solver_ok (w_meshes w) S)); [ | exact F].
        intros p s _ _ P. apply (solver_ok_mono _ S); [ | exact P].
        intros b Ib. right. right. exact Ib.
    + intros q Iq b Ib. right. right. exact (Q q Iq b Ib).
    + cbn [sc_meshes sc_solvers sc_solutions]. split; [exact N1 | split; [ | exact N3] ].
      simpl. constructor; assumption.
  - (* FailedSolver *)
    rewrite <- Em in I. destruct (in_names _ _ I) as (a & Ia). pose proof (in_find _ _ _ Nm Ia) as Fa.
    destruct (wp_inv _ _ _ _ (construct_throws a true c' _ _ _ O (in_K _ _ _ (mesh_in w m a Ia))))
      as (r & h' & E & -> & K' & LK & O').
    exists (with_heap w h'), K'. split; [unfold exec; rewrite Fa, E; reflexivity | ].
    split; [ | simpl; rewrite LK; destruct c'; reflexivity].
    exists S. split; [rewrite <- app_assoc; exact O' | ].
    split; [exact Em | split; [exact Eq | split; [exact F | split; [exact Q | ] ] ] ].
    split; [exact N1 | split; assumption].
  - (* Solve *)
    destruct (solver_object_of _ _ _ _ _ _ F N2 I) as (o & Fo & Io & _ & Sg & Hm & Hf).
    destruct (wp_inv _ _ _ _ (solve_ok o _ _ _ O
               (conj (fun b Ib => in_K _ _ _ (solver_cells w x o Io b Ib)) Sg)
               (in_K _ _ _ (mesh_in w m _ (Hm m eq_refl))))) as (u & h' & E & S' & O' & IS & HF).
    exists (with_heap w h'), []. split; [unfold exec, on_solver; rewrite Fo, E; reflexivity | ].
    split; [ | reflexivity].
    exact (fill_inv w ms ss qs K S x S' h' o O Em Eq F Q N1 N2 N3 Fo O' IS HF).
  - (* SetDirichlet *)
    destruct (in_names _ _ I) as (v & Iv).
    destruct (solver_object_of _ _ _ _ _ _ F N2 Iv) as (o & Fo & Io & _ & Sg & Hm & Hf).
    exists (with_heap w (w_heap w)), [].
    split; [unfold exec, on_solver; rewrite Fo; reflexivity | split; [ | reflexivity] ].
    exact (keep_inv w ms ss qs K S S (w_heap w) Em Eq F Q N1 N2 N3 O (fun b Ib => Ib)).
  - (* SetNeumann *)
    destruct (solver_object_of _ _ _ _ _ _ F N2 I) as (o & Fo & Io & _ & Sg & Hm & Hf).
    destruct (wp_inv _ _ _ _ (set_neumann_ok o _ _ _ O
               (conj (fun b Ib => in_K _ _ _ (solver_cells w x o Io b Ib)) Sg)
               (in_K _ _ _ (mesh_in w m _ (Hm m eq_refl))))) as (u & h' & E & S' & O' & IS).
    exists (with_heap w h'), []. split; [unfold exec, on_solver; rewrite Fo, E; reflexivity | ].
    split; [ | reflexivity].
    exact (keep_inv w ms ss qs K S S' h' Em Eq F Q N1 N2 N3 O' IS).
  - (* Get *)
    destruct (solver_object_of _ _ _ _ _ _ F N2 I) as (o & Fo & Io & _ & Sg & Hm & Hf).
    destruct (wp_inv _ _ _ _ (get_ok o g _ _ _ O
               (conj (fun b Ib => in_K _ _ _ (solver_cells w x o Io b Ib)) Sg)
               (in_K _ _ _ (mesh_in w m _ (Hm m eq_refl))) (Hf eq_refl))) as (u & h' & E & O').
    exists (with_heap w h'), []. split; [unfold exec, on_solver; rewrite Fo, E; reflexivity | ].
    split; [ | reflexivity].
    exact (keep_inv w ms ss qs K S S h' Em Eq F Q N1 N2 N3 O' (fun b Ib => Ib)).
  - (* GetSolution *)
    destruct (solver_object_of _ _ _ _ _ _ F N2 I) as (o & Fo & Io & _ & Sg & Hm & Hf).
    destruct (wp_inv _ _ _ _ (get_solution_ok o _ _ _ O
               (conj (fun b Ib => in_K _ _ _ (solver_cells w x o Io b Ib)) Sg) (Hf eq_refl)))
      as (s & h' & E & S' & O' & IS & IQ).
    exists {| w_heap := h'; w_meshes := w_meshes w; w_solvers := w_solvers w;
              w_solutions := (q, s) :: w_solutions w |}, [].
    split; [unfold exec; rewrite Fo, E; reflexivity | split; [ | reflexivity] ].
    exists S'. split; [refine (owns_perm _ _ _ _ _ O') | ].
    { unfold all_cells; cbn [w_meshes w_solvers w_solutions flat_map snd].
      apply (app_swap (solution_cells s) K (map snd (w_meshes w)) (flat_map (fun p => cells (snd p)) (w_solvers w))). }
    split; [exact Em | split; [simpl; f_equal; exact Eq | split; [ | split] ] ].
    + apply (Forall2_mono _ _ (solver_ok (w_meshes w) S)); [ | exact F].
      intros p s' _ _ P. exact (solver_ok_mono _ _ _ _ _ IS P).
    + cbn [w_solutions]. intros q' [<- | Iq']; [exact IQ | ].
      intros b Ib. apply IS. exact (Q q' Iq' b Ib).
    + cbn [sc_meshes sc_solvers sc_solutions]. split; [exact N1 | split; [exact N2 | constructor; assumption] ].
  - (* SetSolution *)
    destruct (in_names _ _ I) as (v & Iv).
    destruct (solver_object_of _ _ _ _ _ _ F N2 Iv) as (o & Fo & Io & _ & Sg & Hm & Hf).
    rewrite <- Eq in Iq. destruct (in_names _ _ Iq) as (s & Is). pose proof (in_find _ _ _ Nq Is) as Fs.
    destruct (wp_inv _ _ _ _ (set_solution_ok o s _ _ _ O
               (conj (fun b Ib => in_K _ _ _ (solver_cells w x o Io b Ib)) Sg)
               (fun b Ib => in_K _ _ _ (solution_in w q s Is b Ib)) (Q (q, s) Is)))
      as (u & h' & E & S' & O' & IS & HF).
    exists (with_heap w h'), []. split; [unfold exec, on_solver; rewrite Fs, Fo, E; reflexivity | ].
    split; [ | reflexivity].
    exact (fill_inv w ms ss qs K S x S' h' o O Em Eq F Q N1 N2 N3 Fo O' IS HF).
  - (* AddSolution *)
    destruct (solver_object_of _ _ _ _ _ _ F N2 I) as (o & Fo & Io & _ & Sg & Hm & Hf).
    rewrite <- Eq in Iq. destruct (in_names _ _ Iq) as (s & Is). pose proof (in_find _ _ _ Nq Is) as Fs.
    destruct (wp_inv _ _ _ _ (add_solution_ok o s _ _ _ O
               (conj (fun b Ib => in_K _ _ _ (solver_cells w x o Io b Ib)) Sg) (Hf eq_refl)
               (fun b Ib => in_K _ _ _ (solution_in w q s Is b Ib)) (Q (q, s) Is)))
      as (u & h' & E & S' & O' & IS).
    exists (with_heap w h'), []. split; [unfold exec, on_solver; rewrite Fs, Fo, E; reflexivity | ].
    split; [ | reflexivity].
    exact (keep_inv w ms ss qs K S S' h' Em Eq F Q N1 N2 N3 O' IS).
  - (* DeleteSolution *)
    rewrite <- Eq in I. destruct (in_names _ _ I) as (s & Is). pose proof (in_find _ _ _ Nq Is) as Fs.
    assert (P : Permutation (K ++ all_cells w)
      (solution_cells s ++ K ++ all_cells {| w_heap := w_heap w; w_meshes := w_meshes w;
         w_solvers := w_solvers w; w_solutions := drop_name q (w_solutions w) |})).
    { unfold all_cells; cbn [w_meshes w_solvers w_solutions].
      pose proof (Permutation_flat_map (fun p => solution_cells (snd p)) (drop_perm q s _ Nq Fs)) as PP.
      cbn [flat_map snd] in PP.
      eapply Permutation_trans; [do 3 apply Permutation_app_head; exact PP | ].
      apply Permutation_sym, app_swap. }
    destruct (wp_inv _ _ _ _ (delete_solution_ok s _ _ _ (owns_perm _ _ _ _ P O))) as (u & h' & E & O').
    exists {| w_heap := h'; w_meshes := w_meshes w; w_solvers := w_solvers w;
              w_solutions := drop_name q (w_solutions w) |}, [].
    split; [unfold exec; rewrite Fs, E; reflexivity | split; [ | reflexivity] ].
    exists S. split; [exact O' | split; [exact Em | ] ].
    split; [cbn [w_solutions sc_solutions]; rewrite names_drop; f_equal; exact Eq | ].
    split; [exact F | split; [ | split; [exact N1 | split; [exact N2 | apply nodup_without, N3] ] ] ].
    intros q' Iq'. apply Q. cbn [w_solutions] in Iq'. unfold drop_name in Iq'. apply filter_In in Iq'.
    exact (proj1 Iq').
  - (* DeleteSolver *)
    destruct (in_names _ _ I) as (v & Iv).
    destruct (solver_object_of _ _ _ _ _ _ F N2 Iv) as (o & Fo & Io & _).
    assert (P : Permutation (K ++ all_cells w)
      (cells o ++ K ++ all_cells {| w_heap := w_heap w; w_meshes := w_meshes w;
         w_solvers := drop_name x (w_solvers w); w_solutions := w_solutions w |})).
    { unfold all_cells; cbn [w_meshes w_solvers w_solutions].
      pose proof (Permutation_flat_map (fun p => cells (snd p)) (drop_perm x o _ Nl Fo)) as PP.
      cbn [flat_map snd] in PP.
      eapply Permutation_trans; [do 2 apply Permutation_app_head; apply Permutation_app_tail; exact PP | ].
      rewrite <- app_assoc. apply Permutation_sym. apply (app_swap (cells o) K (map snd (w_meshes w)) []). }
    destruct (wp_inv _ _ _ _ (destroy_ok o _ _ _ (owns_perm _ _ _ _ P O))) as (u & h' & E & O').
    exists {| w_heap := h'; w_meshes := w_meshes w; w_solvers := drop_name x (w_solvers w);
              w_solutions := w_solutions w |}, [].
    split; [unfold exec; rewrite Fo, E; reflexivity | split; [ | reflexivity] ].
    exists S. split; [exact O' | split; [exact Em | split; [exact Eq | split; [ | split; [exact Q | ] ] ] ] ].
    + cbn [w_meshes w_solvers sc_solvers]. clear - F. induction F as [ | p s l m Pab F IH]; [constructor | ].
      unfold drop_name; simpl. rewrite (proj1 Pab).
      destruct (negb (fst s =? x)%nat); [constructor; [exact Pab | exact IH] | exact IH].
    + cbn [sc_meshes sc_solvers sc_solutions]. split; [exact N1 | split; [ | exact N3] ].
      rewrite names_drop. apply nodup_without, N2.
Qed.
