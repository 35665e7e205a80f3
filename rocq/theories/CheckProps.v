(** C44: what crossCheck and verify decide. *)
From Coq Require Import Permutation.
From Verif Require Import Outcome ListUtil WordsModel SimplexModel SimplexProofs NbrModel NbrSpec PointModel PointProofs CheckModel CheckSpec CheckProofs.
Local Open Scope N_scope.

(** ** crossCheck *)
(** For triangulations without duplicates crossCheck finishes and reports valid exactly if both have the same simplices
    and every finite neighbor entry of the reference is matched; [invalid] is exact, [missing] holds missing simplices
    only and is empty exactly if none is missing. *)
Theorem C44_cross over km kr mget rget ms rs tab chunks :
  enum mget ms -> enum rget rs -> tri over km mget -> tri over kr rget -> no_dups mget -> no_dups rget ->
  Permutation tab (map entry ms ++ map entry rs) -> Permutation (concat chunks) rs ->
  exists r, cross_check mget rget tab ms rs chunks = Val r /\
    (c_valid r = true <-> same_simplices mget rget /\ entries_found mget rget) /\
    (forall s, In s (c_invalid r) <-> In s ms /\ ~ occurs rget s) /\
    (forall s, In s (c_missing r) -> In s rs /\ ~ occurs mget s) /\
    (c_missing r = [] <-> forall s, In s rs -> occurs mget s).
Proof. intros H1 H2 H3 H4 H5 H6 H7 H8. exact (cross_spec over km kr mget rget ms rs H1 H2 H3 H4 tab H7 H5 chunks H6 H8). Qed.
Print Assumptions C44_cross.

(** If moreover the neighbor entries of both are complete and correct, it decides exactly whether they have the same
    simplices. *)
Theorem C44_cross_same over km kr mget rget ms rs tab chunks :
  enum mget ms -> enum rget rs -> tri over km mget -> tri over kr rget -> no_dups mget -> no_dups rget ->
  entries_right mget -> entries_right rget ->
  Permutation tab (map entry ms ++ map entry rs) -> Permutation (concat chunks) rs ->
  exists r, cross_check mget rget tab ms rs chunks = Val r /\ (c_valid r = true <-> same_simplices mget rget).
Proof.
  intros H1 H2 H3 H4 H5 H6 R1 R2 H7 H8. destruct (C44_cross over km kr mget rget ms rs tab chunks H1 H2 H3 H4 H5 H6 H7 H8) as [r [E [H _]]].
  exists r. split; [exact E|]. rewrite H. pose proof (right_found mget rget R1 R2). tauto.
Qed.
Print Assumptions C44_cross_same.

(** ** verify *)
(** verify finishes and reports valid exactly if: the points used are those given; the hull lists the infinite simplices;
    there are no duplicates; simplices sharing a face list each other; no two simplices of which two faces have the same
    hash list each other without sharing a face; and no vertex of a listed neighbor lies in the sphere of a simplex.  The
    lists of the report are exact. *)
Theorem C44_verify {A} over D (insph : list A -> A -> bool) get k ls pts used hull pointIds tab ftab fe :
  D <= 30 -> k <> 0%nat -> tri over k get -> enum get ls -> pts_ok D pts -> verts_known D pts get ->
  finite_size pts + 2 ^ D < 2 ^ 64 -> used_list get used -> (forall c, In c hull -> exists s, get c = Some s) ->
  match pointIds with Some ids => forall i, In i ids -> is_id D pts i | None => p_off pts = 0 end ->
  Permutation tab (map entry ls) -> face_entries over ls = Val fe -> Permutation ftab fe ->
  exists r, verify over D insph get pts hull ls used pointIds tab ftab = Val r /\
    (v_valid r = true <-> points_right D pts used pointIds /\ hull_right D get hull /\ no_dups get /\
       entries_complete get /\ entries_met over get /\ circles_empty D insph pts get) /\
    (forall a b, In (a, b) (v_dups r) <-> In a ls /\ In b ls /\ x_verts a = x_verts b /\ x_id a <> x_id b) /\
    (forall a b, In (a, b) (v_wrong r) <-> In a ls /\ In b ls /\ hash_met over a b /\
       ((joined a b /\ (~ In (x_id b) (x_nbrs a) \/ ~ In (x_id a) (x_nbrs b))) \/
        (~ joined a b /\ (In (x_id b) (x_nbrs a) \/ In (x_id a) (x_nbrs b))))) /\
    (forall s v, In (s, v) (v_circle r) <-> In s ls /\ exists n t, In n (x_nbrs s) /\ n <> s_inf /\ get n = Some t /\ In v (x_verts t) /\
       p_finite D v = true /\ ~ In v (x_verts s) /\
       exists cs p, Forall2 (fun w c => p_get D pts w = Val c) (x_verts s) cs /\ p_get D pts v = Val p /\ insph cs p = true).
Proof.
  intros H1 H2 H3 H4 H5 H6 H7 H8 H9 H10 H11 H12 H13.
  exact (verify_spec over D H1 insph get k H2 H3 ls H4 pts H5 H6 H7 used H8 hull H9 pointIds H10 tab ftab fe H11 H12 H13).
Qed.
Print Assumptions C44_verify.

(** A triangulation with all that (the global empty-sphere property included) is accepted: no false alarms.  The converse
    is refuted below. *)
Theorem C44_verify_accepts_partial {A} over D (insph : list A -> A -> bool) get k ls pts used hull pointIds tab ftab fe :
  D <= 30 -> k <> 0%nat -> tri over k get -> enum get ls -> pts_ok D pts -> verts_known D pts get ->
  finite_size pts + 2 ^ D < 2 ^ 64 -> used_list get used -> (forall c, In c hull -> exists s, get c = Some s) ->
  match pointIds with Some ids => forall i, In i ids -> is_id D pts i | None => p_off pts = 0 end ->
  Permutation tab (map entry ls) -> face_entries over ls = Val fe -> Permutation ftab fe ->
  points_right D pts used pointIds -> hull_right D get hull -> no_dups get -> entries_right get -> delaunay D insph pts get ->
  exists r, verify over D insph get pts hull ls used pointIds tab ftab = Val r /\ v_valid r = true.
Proof.
  intros H1 H2 H3 H4 H5 H6 H7 H8 H9 H10 H11 H12 H13 P1 P2 P3 P4 P5.
  destruct (C44_verify over D insph get k ls pts used hull pointIds tab ftab fe H1 H2 H3 H4 H5 H6 H7 H8 H9 H10 H11 H12 H13) as [r [E [H _]]].
  exists r. split; [exact E|]. apply H. split; [exact P1|]. split; [exact P2|]. split; [exact P3|].
  assert (Hsym : forall c s d t, live get c s -> live get d t -> joined s t -> joined t s).
  { intros c s d t L L' J. destruct H3 as [_ [Hl _]]. destruct (Hl c s L) as [S1 [S2 _]], (Hl d t L') as [T1 [T2 _]]. apply joined_sym; auto; [|congruence].
    intros E'. rewrite E' in T2. now apply H2. }
  split; [|split].
  - intros c s d t L L' J. split.
    + apply (P4 c s d L). exists t. auto.
    + apply (P4 d t c L'). exists s. split; [exact L|]. eapply Hsym; eauto.
  - intros c s d t L L' _ J.
    split; intros Hin.
    + destruct (proj1 (P4 c s d L)) as [t' [Lt Jt]]; [split; [exact Hin|apply L']|]. rewrite (live_uniq _ _ _ _ Lt L') in Jt. contradiction.
    + destruct (proj1 (P4 d t c L')) as [s' [Ls Js]]; [split; [exact Hin|apply L]|]. rewrite (live_uniq _ _ _ _ Ls L) in Js. apply J. eapply Hsym; eauto.
  - intros c s n t v L Hn Hf Et Hv Fv Hni. destruct (proj1 (P4 c s n L) (conj Hn Hf)) as [t' [Lt _]].
    assert (t' = t) by (destruct Lt as [X _]; congruence). subst t'. exact (P5 c s n t v L Lt Hv Fv Hni).
Qed.
Print Assumptions C44_verify_accepts_partial.

(** ** Concrete cases *)
(** Cells as a list of ids and simplices. *)
Fixpoint cells_of (l : list (N * simplex)) (id : N) : option simplex :=
  match l with [] => None | (c, s) :: r => if id =? c then Some s else cells_of r id end.
Lemma cells_in l id s : cells_of l id = Some s -> In (id, s) l.
Proof. induction l as [|[c t] l IH]; cbn [cells_of]; [discriminate|]. destruct (N.eqb_spec id c) as [->|]; [intros E; injection E as ->; now left|intros E; right; auto]. Qed.
Definition liveb (l : list (N * simplex)) (e : N * simplex) : bool :=
  (x_id (snd e) =? fst e) && negb (fst e =? s_inf).
Lemma cells_uniq l : NoDup (map fst l) -> forall id s, In (id, s) l -> cells_of l id = Some s.
Proof.
  induction l as [|[c t] l IH]; intros Hn id s; cbn [map fst] in Hn; [intros []|]. inversion Hn as [|? ? H1 H2]; subst. intros [E|H]; cbn [cells_of].
  - injection E as -> ->. now rewrite N.eqb_refl.
  - destruct (N.eqb_spec id c) as [->|]; [|now apply IH]. exfalso. apply H1. apply in_map_iff. exists (c, s). auto.
Qed.
Lemma live_cells l c s : live (cells_of l) c s -> In (c, s) (filter (liveb l) l).
Proof. intros [E [Ei Hi]]. apply filter_In. split; [now apply cells_in|]. unfold liveb. cbn [fst snd]. rewrite Ei, N.eqb_refl. cbn [andb]. apply negb_true_iff, N.eqb_neq, Hi. Qed.
Lemma cells_live l c s : NoDup (map fst l) -> In (c, s) (filter (liveb l) l) -> live (cells_of l) c s.
Proof.
  intros Hn H. apply filter_In in H. destruct H as [H E]. unfold liveb in E. cbn [fst snd] in E. apply andb_true_iff in E. destruct E as [E1 E2].
  split; [now apply cells_uniq|]. split; [now apply N.eqb_eq|]. now apply N.eqb_neq, negb_true_iff.
Qed.
Fixpoint nodupb (l : list N) : bool := match l with [] => true | x :: r => negb (isin r x) && nodupb r end.
Lemma nodupb_spec l : nodupb l = true -> NoDup l.
Proof.
  induction l as [|x l IH]; cbn [nodupb]; intros H; [constructor|]. apply andb_true_iff in H. destruct H as [H1 H2]. constructor; [|auto].
  intros Hin. apply isin_In in Hin. rewrite Hin in H1. discriminate.
Qed.
Definition listed_cells (l : list (N * simplex)) : list simplex := map snd (filter (liveb l) l).
Lemma enum_cells l : nodupb (map fst l) = true -> enum (cells_of l) (listed_cells l).
Proof.
  intros Hn. apply nodupb_spec in Hn. split.
  - unfold listed_cells. rewrite map_map. assert (E : forall e, In e (filter (liveb l) l) -> x_id (snd e) = fst e).
    { intros e He. apply filter_In in He. destruct He as [_ He]. apply andb_true_iff in He. now apply N.eqb_eq. }
    rewrite (map_ext_in _ fst _ E). clear E. induction l as [|[c t] l IH]; [constructor|]. inversion Hn as [|? ? H1 H2]; subst.
    assert (IH' : NoDup (map fst (filter (liveb l) l))) by auto.
    change (liveb ((c, t) :: l)) with (liveb l). cbn [filter]. destruct (liveb l (c, t)); [|exact IH']. cbn [map fst]. constructor; [|exact IH'].
    intros Hin. apply H1. apply in_map_iff in Hin. destruct Hin as [e [Ee He]]. apply filter_In in He. apply in_map_iff. exists e. tauto.
  - intros s. unfold listed_cells. rewrite in_map_iff. split.
    + intros [[c t] [E He]]. cbn [snd] in E. subst t. pose proof (cells_live l c s Hn He) as L. now apply live_self in L.
    + intros L. exists (x_id s, s). split; [reflexivity|]. now apply live_cells.
Qed.
Fixpoint sortedb (l : list N) : bool := match l with [] => true | x :: r => forallb (N.ltb x) r && sortedb r end.
Lemma sortedb_spec l : sortedb l = true -> sorted l.
Proof.
  induction l as [|x l IH]; cbn [sortedb]; intros H; [constructor|]. apply andb_true_iff in H. destruct H as [H1 H2]. constructor; [auto|].
  apply Forall_forall. intros y Hy. rewrite forallb_forall in H1. now apply N.ltb_lt, H1.
Qed.
Definition fpb (s : simplex) : bool := x_fp s =? gen_fp (fun x => x) (x_verts s).
Definition trib (k : nat) (l : list (N * simplex)) : bool :=
  nodupb (map fst l) && forallb (fun e => (x_id (snd e) =? fst e) || (x_id (snd e) =? s_inf)) l &&
  forallb (fun e => sortedb (x_verts (snd e)) && Nat.eqb (length (x_verts (snd e))) k && fpb (snd e) &&
     forallb (fun n => (n =? s_inf) || match cells_of l n with Some t => fpb t | None => false end) (x_nbrs (snd e))) (filter (liveb l) l).
Lemma trib_spec k l : trib k l = true -> tri (fun x => x) k (cells_of l).
Proof.
  unfold trib. rewrite !andb_true_iff, !forallb_forall. intros [[_ H1] H2].
  assert (HL : forall c s, live (cells_of l) c s -> sorted (x_verts s) /\ length (x_verts s) = k /\ x_fp s = gen_fp (fun x => x) (x_verts s) /\
     forall n, In n (x_nbrs s) -> n <> s_inf -> exists t, cells_of l n = Some t /\ x_fp t = gen_fp (fun x => x) (x_verts t)).
  { intros c s L. specialize (H2 _ (live_cells _ _ _ L)). cbn [snd] in H2. rewrite !andb_true_iff in H2. destruct H2 as [[[A1 A2] A3] A4].
    split; [now apply sortedb_spec|]. split; [now apply Nat.eqb_eq|]. split; [now apply N.eqb_eq|]. intros n Hn Hf. rewrite forallb_forall in A4. specialize (A4 n Hn).
    apply orb_true_iff in A4. destruct A4 as [A4|A4]; [apply N.eqb_eq in A4; contradiction|]. destruct (cells_of l n) as [t|]; [|discriminate]. exists t. split; [reflexivity|now apply N.eqb_eq]. }
  split; [|split].
  - intros c s E. specialize (H1 _ (cells_in _ _ _ E)). cbn [fst snd] in H1. apply orb_true_iff in H1. rewrite !N.eqb_eq in H1. exact H1.
  - intros c s L. destruct (HL c s L) as [A1 [A2 [A3 _]]]. auto.
  - intros c s n L. destruct (HL c s L) as [_ [_ [_ A4]]]. auto.
Qed.
(** Deciding the specifications on such cells. *)
Definition all_live (l : list (N * simplex)) (f : N -> simplex -> bool) : bool := forallb (fun e => f (fst e) (snd e)) (filter (liveb l) l).
Lemma all_live_spec l f : all_live l f = true -> forall c s, live (cells_of l) c s -> f c s = true.
Proof. unfold all_live. rewrite forallb_forall. intros H c s L. exact (H _ (live_cells _ _ _ L)). Qed.
Definition no_dupsb l := all_live l (fun c s => all_live l (fun d t => negb (equal_arrays (x_verts s) (x_verts t)) || (c =? d))).
Lemma equal_arrays_refl a : equal_arrays a a = true.
Proof. induction a as [|x a IH]; cbn; [reflexivity|]. now rewrite N.eqb_refl. Qed.
Lemma no_dupsb_spec l : no_dupsb l = true -> no_dups (cells_of l).
Proof.
  intros H c s d t L L' E. pose proof (all_live_spec l _ (all_live_spec l _ H c s L) d t L') as X. cbn beta in X. rewrite E, equal_arrays_refl in X. now apply N.eqb_eq in X.
Qed.
Definition joinedb (s t : simplex) : bool := match adj s t with Val b => b | _ => false end.
Lemma joinedb_spec k l c s d t : trib (S k) l = true -> live (cells_of l) c s -> live (cells_of l) d t -> joinedb s t = true <-> joined s t.
Proof.
  intros H L L'. destruct (trib_spec _ _ H) as [_ [Hl _]]. destruct (Hl _ _ L) as [S1 [S2 _]], (Hl _ _ L') as [T1 _].
  destruct (adj_spec s t S1 T1) as [b [E Hb]]; [intros E; rewrite E in S2; discriminate|]. unfold joinedb. now rewrite E.
Qed.
Definition is_live (l : list (N * simplex)) (n : N) : bool := match cells_of l n with Some t => liveb l (n, t) | None => false end.
Definition entries_rightb l := all_live l (fun c s =>
  forallb (fun n => (n =? s_inf) || is_live l n && match cells_of l n with Some t => joinedb s t | None => false end) (x_nbrs s) &&
  all_live l (fun d t => negb (joinedb s t) || isin (x_nbrs s) d)).
Lemma entries_rightb_spec k l : trib (S k) l = true -> entries_rightb l = true -> entries_right (cells_of l).
Proof.
  intros Ht H c s n L. pose proof (all_live_spec l _ H c s L) as X. cbn beta in X. apply andb_true_iff in X. destruct X as [X1 X2]. split.
  - intros [Hn Hf]. rewrite forallb_forall in X1. specialize (X1 n Hn). apply orb_true_iff in X1. destruct X1 as [X1|X1]; [apply N.eqb_eq in X1; contradiction|].
    apply andb_true_iff in X1. destruct X1 as [A B]. unfold is_live in A. destruct (cells_of l n) as [t|] eqn:E; [|discriminate].
    assert (Lt : live (cells_of l) n t).
    { unfold liveb in A. cbn [fst snd] in A. apply andb_true_iff in A. split; [exact E|]. split; [now apply N.eqb_eq|exact Hf]. }
    exists t. split; [exact Lt|]. now apply (joinedb_spec k l c s n t Ht L Lt).
  - intros [t [Lt J]]. apply (joinedb_spec k l c s n t Ht L Lt) in J. pose proof (all_live_spec l _ X2 n t Lt) as Y. cbn beta in Y. rewrite J in Y. cbn [negb orb] in Y.
    split; [now apply isin_In|apply Lt].
Qed.
Lemma entries_wrong k l c s n : trib (S k) l = true -> live (cells_of l) c s -> In n (x_nbrs s) -> n <> s_inf ->
  match cells_of l n with Some t => if liveb l (n, t) then joinedb s t = false else True | None => True end -> ~ entries_right (cells_of l).
Proof.
  intros Ht L Hn Hf E R. destruct (proj1 (R c s n L) (conj Hn Hf)) as [t [Lt J]]. pose proof Lt as [Et [Ei _]]. rewrite Et in E.
  assert (El : liveb l (n, t) = true) by (pose proof (live_cells _ _ _ Lt) as X; apply filter_In in X; tauto). rewrite El in E.
  apply (joinedb_spec k l c s n t Ht L Lt) in J. congruence.
Qed.

(** *** crossCheck *)
Definition sim (id : N) (vs ns : list N) : N * simplex := (id, mks id vs ns (gen_fp (fun x => x) vs) 0).
(** A deleted simplex: its cell has the infinite id. *)
Definition gone (id : N) (vs : list N) : N * simplex := (id, mks s_inf vs [s_inf; s_inf; s_inf] (gen_fp (fun x => x) vs) 0).
Definition x_real := [sim 0 [1; 2; 3] [1; s_inf; s_inf]; sim 1 [2; 3; 4] [s_inf; s_inf; 0]].
(** The same simplices under other ids, with a deleted one in between. *)
Definition x_mine := [sim 7 [2; 3; 4] [s_inf; s_inf; 9]; gone 8 [1; 2; 4]; sim 9 [1; 2; 3] [7; s_inf; s_inf]].
Definition entries (l l' : list (N * simplex)) := map entry (listed_cells l) ++ map entry (listed_cells l').
Example C44_cross_ex :
  enum (cells_of x_mine) (listed_cells x_mine) /\ enum (cells_of x_real) (listed_cells x_real) /\
  tri (fun x => x) 3 (cells_of x_mine) /\ tri (fun x => x) 3 (cells_of x_real) /\ no_dups (cells_of x_mine) /\ no_dups (cells_of x_real) /\
  entries_right (cells_of x_mine) /\ entries_right (cells_of x_real) /\
  cross_check (cells_of x_mine) (cells_of x_real) (entries x_mine x_real) (listed_cells x_mine) (listed_cells x_real) [listed_cells x_real] = Val (mkcr true [] []).
Proof.
  split; [now apply enum_cells|]. split; [now apply enum_cells|]. split; [now apply trib_spec|]. split; [now apply trib_spec|]. split; [now apply no_dupsb_spec|].
  split; [now apply no_dupsb_spec|]. split; [now apply (entries_rightb_spec 2)|]. split; [now apply (entries_rightb_spec 2)|]. vm_compute. reflexivity.
Qed.

(** The full statement of C44 does not hold: [missing] need not list all missing simplices, since the first one found ends
    the chunk. *)
Theorem C44_cross_missing_refuted :
  exists mget rget ms rs tab chunks r, enum mget ms /\ enum rget rs /\ tri (fun x => x) 3 mget /\ tri (fun x => x) 3 rget /\ no_dups mget /\ no_dups rget /\
    Permutation tab (map entry ms ++ map entry rs) /\ Permutation (concat chunks) rs /\ cross_check mget rget tab ms rs chunks = Val r /\
    exists s, In s rs /\ ~ occurs mget s /\ ~ In s (c_missing r).
Proof.
  set (m := [sim 5 [4; 5; 6] [s_inf; s_inf; s_inf]]).
  exists (cells_of m), (cells_of x_real), (listed_cells m), (listed_cells x_real), (entries m x_real), [listed_cells x_real], (mkcr false [snd (sim 0 [1; 2; 3] [1; s_inf; s_inf])] (listed_cells m)).
  split; [now apply enum_cells|]. split; [now apply enum_cells|]. split; [now apply trib_spec|]. split; [now apply trib_spec|]. split; [now apply no_dupsb_spec|].
  split; [now apply no_dupsb_spec|]. split; [apply Permutation_refl|]. split; [apply Permutation_refl|]. split; [vm_compute; reflexivity|].
  exists (snd (sim 1 [2; 3; 4] [s_inf; s_inf; 0])). split; [right; left; reflexivity|]. split.
  - intros [c [t [L E]]]. apply live_cells in L. change (filter (liveb m) m) with m in L. destruct L as [L|[]]. injection L as <- <-. discriminate.
  - intros [E|[]]. discriminate.
Qed.
Print Assumptions C44_cross_missing_refuted.

(** Wrong entries of the own triangulation where the reference has none are not noticed: here the simplex 7 names itself. *)
Theorem C44_cross_neighbors_refuted :
  exists mget rget ms rs tab chunks r, enum mget ms /\ enum rget rs /\ tri (fun x => x) 3 mget /\ tri (fun x => x) 3 rget /\ no_dups mget /\ no_dups rget /\
    Permutation tab (map entry ms ++ map entry rs) /\ Permutation (concat chunks) rs /\ cross_check mget rget tab ms rs chunks = Val r /\
    c_valid r = true /\ entries_right rget /\ ~ entries_right mget.
Proof.
  set (m := [sim 7 [2; 3; 4] [7; s_inf; 9]; sim 9 [1; 2; 3] [7; s_inf; s_inf]]).
  exists (cells_of m), (cells_of x_real), (listed_cells m), (listed_cells x_real), (entries m x_real), [listed_cells x_real], (mkcr true [] []).
  split; [now apply enum_cells|]. split; [now apply enum_cells|]. split; [now apply trib_spec|]. split; [now apply trib_spec|]. split; [now apply no_dupsb_spec|].
  split; [now apply no_dupsb_spec|]. split; [apply Permutation_refl|]. split; [apply Permutation_refl|]. split; [vm_compute; reflexivity|]. split; [reflexivity|].
  split; [now apply (entries_rightb_spec 2)|]. apply (entries_wrong 2 m 7 (snd (sim 7 [2; 3; 4] [7; s_inf; 9])) 7).
  - vm_compute. reflexivity.
  - apply cells_live; [now apply nodupb_spec|]. left. reflexivity.
  - now left.
  - discriminate.
  - vm_compute. reflexivity.
Qed.
Print Assumptions C44_cross_neighbors_refuted.

(** Nor is a neighbor entry that names a deleted simplex with the right vertices. *)
Theorem C44_cross_deleted_refuted :
  exists mget rget ms rs tab chunks r, enum mget ms /\ enum rget rs /\ tri (fun x => x) 3 mget /\ tri (fun x => x) 3 rget /\ no_dups mget /\ no_dups rget /\
    Permutation tab (map entry ms ++ map entry rs) /\ Permutation (concat chunks) rs /\ cross_check mget rget tab ms rs chunks = Val r /\
    c_valid r = true /\ exists c s n, live mget c s /\ In n (x_nbrs s) /\ n <> s_inf /\ forall t, ~ live mget n t.
Proof.
  set (m := [sim 7 [2; 3; 4] [s_inf; s_inf; 9]; gone 8 [2; 3; 4]; sim 9 [1; 2; 3] [8; s_inf; s_inf]]).
  exists (cells_of m), (cells_of x_real), (listed_cells m), (listed_cells x_real), (entries m x_real), [listed_cells x_real], (mkcr true [] []).
  split; [now apply enum_cells|]. split; [now apply enum_cells|]. split; [now apply trib_spec|]. split; [now apply trib_spec|]. split; [now apply no_dupsb_spec|].
  split; [now apply no_dupsb_spec|]. split; [apply Permutation_refl|]. split; [apply Permutation_refl|]. split; [vm_compute; reflexivity|]. split; [reflexivity|].
  exists 9, (snd (sim 9 [1; 2; 3] [8; s_inf; s_inf])), 8. split; [apply cells_live; [now apply nodupb_spec|]; right; left; reflexivity|].
  split; [now left|]. split; [discriminate|]. intros t [E [Ei _]]. injection E as <-. discriminate.
Qed.
Print Assumptions C44_cross_deleted_refuted.

(** *** verify *)
(** The incircle test on integer coordinates (closed disc, as C32 says of the source). *)
Definition zpt := (Z * Z)%type.
Definition zorient (a b c : zpt) : Z := ((fst a - fst c) * (snd b - snd c) - (snd a - snd c) * (fst b - fst c))%Z.
Definition zincircle (a b c d : zpt) : Z :=
  (let ax := fst a - fst d in let ay := snd a - snd d in let bx := fst b - fst d in let by_ := snd b - snd d in
   let cx := fst c - fst d in let cy := snd c - snd d in
   (ax * ax + ay * ay) * (bx * cy - cx * by_) + (bx * bx + by_ * by_) * (cx * ay - ax * cy) + (cx * cx + cy * cy) * (ax * by_ - bx * ay))%Z.
Definition zin (cs : list zpt) (p : zpt) : bool :=
  match cs with [a; b; c] => (0 <=? zorient a b c * zincircle a b c p)%Z | _ => false end.
Definition infs : list zpt := [(1000, 1000); (-1000, 1000); (1000, -1000); (-1000, -1000)]%Z.
Definition x_pts (l : list zpt) : points zpt := mkpts ((0, 0)%Z :: l) 0 infs.

Definition vknownb (n : N) (l : list (N * simplex)) : bool :=
  all_live l (fun _ s => forallb (fun v => (0 <? v) && (v <? n) || (2 ^ 64 - 4 <=? v) && (v <? 2 ^ 64)) (x_verts s) &&
    forallb (fun m => match cells_of l m with Some t => forallb (fun v => (0 <? v) && (v <? n) || (2 ^ 64 - 4 <=? v) && (v <? 2 ^ 64)) (x_verts t) | None => true end) (x_nbrs s)).
Lemma vknownb_spec ps l : vknownb (N.of_nat (S (length ps))) l = true -> verts_known 2 (x_pts ps) (cells_of l).
Proof.
  intros H. set (f := fun v : N => (0 <? v) && (v <? N.of_nat (S (length ps))) || (2 ^ 64 - 4 <=? v) && (v <? 2 ^ 64)) in *.
  assert (Hf : forall v, f v = true -> is_id 2 (x_pts ps) v).
  { intros v E. unfold f in E. unfold is_id, is_fin_id, is_inf_id. change (p_off (x_pts ps)) with 0. change (length (p_vec (x_pts ps))) with (S (length ps)). change (2 ^ 2) with 4. clear -E. lia. }
  split.
  - intros c s v L Hv. pose proof (all_live_spec l _ H c s L) as X. cbn beta in X. apply andb_true_iff in X. destruct X as [X _]. rewrite forallb_forall in X. apply Hf, X, Hv.
  - intros c s n t v L Hn _ Et Hv. pose proof (all_live_spec l _ H c s L) as X. cbn beta in X. apply andb_true_iff in X. destruct X as [_ X].
    rewrite forallb_forall in X. specialize (X n Hn). rewrite Et in X. rewrite forallb_forall in X. apply Hf, X, Hv.
Qed.
Lemma x_pts_ok ps : N.of_nat (length ps) < 1000 -> pts_ok 2 (x_pts ps) /\ finite_size (x_pts ps) + 2 ^ 2 < 2 ^ 64.
Proof.
  intros H. unfold pts_ok, finite_size. change (p_off (x_pts ps)) with 0. change (length (p_vec (x_pts ps))) with (S (length ps)). change (p_infs (x_pts ps)) with infs.
  change (2 ^ 2) with 4. change (N.of_nat (length infs)) with 4. split; [split; [discriminate|split; [lia|reflexivity]]|lia].
Qed.
Definition used_of (l : list (N * simplex)) : list N := nodup N.eq_dec (flat_map x_verts (listed_cells l)).
Lemma used_of_spec l : nodupb (map fst l) = true -> used_list (cells_of l) (used_of l).
Proof.
  intros Hn. pose proof (enum_cells l Hn) as He. split; [apply NoDup_nodup|]. intros v. unfold used_of. rewrite nodup_In, in_flat_map. split.
  - intros [s [Hs Hv]]. exists (x_id s), s. split; [eapply enum_live; eauto|exact Hv].
  - intros [c [s [L Hv]]]. exists s. split; [eapply enum_In; eauto|exact Hv].
Qed.
Definition table_of (l : list (N * simplex)) : list (N * N) := match face_entries (fun x => x) (listed_cells l) with Val t => t | _ => [] end.
Lemma table_of_spec l : nodupb (map fst l) = true -> trib 3 l = true -> face_entries (fun x => x) (listed_cells l) = Val (table_of l).
Proof.
  intros Hn Ht. destruct (faces_spec (fun x => x) 2 ltac:(lia) (cells_of l) 3 ltac:(discriminate) (listed_cells l) (enum_cells l Hn)) as [fe [E _]].
  unfold table_of. now rewrite E.
Qed.

(** The hypotheses of C44_verify, for the dimension 2. *)
Definition verifiable (get : N -> option simplex) (ls : list simplex) (pts : points zpt) (used hull : list N) (pointIds : option (list N)) (tab ftab : list (N * N)) : Prop :=
  tri (fun x => x) 3 get /\ enum get ls /\ pts_ok 2 pts /\ verts_known 2 pts get /\ finite_size pts + 2 ^ 2 < 2 ^ 64 /\ used_list get used /\
  (forall c, In c hull -> exists s, get c = Some s) /\ match pointIds with Some ids => forall i, In i ids -> is_id 2 pts i | None => p_off pts = 0 end /\
  Permutation tab (map entry ls) /\ exists fe, face_entries (fun x => x) ls = Val fe /\ Permutation ftab fe.
Lemma verifiable_cells l ps hull pointIds : trib 3 l = true -> vknownb (N.of_nat (S (length ps))) l = true -> N.of_nat (length ps) < 1000 ->
  forallb (fun c => match cells_of l c with Some _ => true | None => false end) hull = true ->
  match pointIds with Some ids => forallb (fun i => (0 <? i) && (i <? N.of_nat (S (length ps)))) ids = true | None => True end ->
  verifiable (cells_of l) (listed_cells l) (x_pts ps) (used_of l) hull pointIds (map entry (listed_cells l)) (table_of l).
Proof.
  intros H1 H2 H3 H4 H5. assert (Hn : nodupb (map fst l) = true) by (unfold trib in H1; rewrite !andb_true_iff in H1; tauto).
  split; [now apply trib_spec|]. split; [now apply enum_cells|]. destruct (x_pts_ok ps H3) as [P1 P2]. split; [exact P1|]. split; [now apply vknownb_spec|].
  split; [exact P2|]. split; [now apply used_of_spec|]. split.
  { intros c Hc. rewrite forallb_forall in H4. specialize (H4 c Hc). destruct (cells_of l c) as [s|]; [eauto|discriminate]. }
  split; [|split; [apply Permutation_refl|exists (table_of l); split; [now apply table_of_spec|apply Permutation_refl]]].
  destruct pointIds as [ids|]; [|reflexivity]. intros i Hi. rewrite forallb_forall in H5. specialize (H5 i Hi). left. unfold is_fin_id.
  change (p_off (x_pts ps)) with 0. change (length (p_vec (x_pts ps))) with (S (length ps)). clear -H5. lia.
Qed.

Definition x_ps : list zpt := [(0, 0); (2, 0); (0, 2); (3, 3)]%Z.
(** The hypotheses and conclusion on two triangles that share an edge. *)
Definition dverify l ps hull pointIds := verify (fun x => x) 2 zin (cells_of l) (x_pts ps) hull (listed_cells l) (used_of l) pointIds (map entry (listed_cells l)) (table_of l).
Example C44_verify_ex : verifiable (cells_of x_real) (listed_cells x_real) (x_pts x_ps) (used_of x_real) [] (Some [1; 2; 3; 4]) (map entry (listed_cells x_real)) (table_of x_real) /\
  dverify x_real x_ps [] (Some [1; 2; 3; 4]) = Val (mkvr true [] [] []).
Proof. split; [apply verifiable_cells; vm_compute; reflexivity|vm_compute; reflexivity]. Qed.
(** With the fourth point moved into the circle and the entry of simplex 1 removed, both are reported. *)
Example C44_verify_ex2 : let l := [sim 0 [1; 2; 3] [1; s_inf; s_inf]; sim 1 [2; 3; 4] [s_inf; s_inf; s_inf]] in
  exists r, dverify l [(0, 0); (3, 0); (0, 3); (2, 2)]%Z [] (Some [1; 2; 3; 4]) = Val r /\ v_valid r = false /\ length (v_circle r) = 1%nat /\ length (v_wrong r) = 2%nat.
Proof. eexists. split; [vm_compute; reflexivity|]. vm_compute. auto. Qed.

(** A neighbor entry naming a simplex that shares nothing is not noticed. *)
Theorem C44_verify_neighbors_refuted : exists get ls pts used hull pointIds tab ftab r,
  verifiable get ls pts used hull pointIds tab ftab /\ verify (fun x => x) 2 zin get pts hull ls used pointIds tab ftab = Val r /\ v_valid r = true /\ ~ entries_right get.
Proof.
  set (l := [sim 0 [1; 2; 3] [1; s_inf; s_inf]; sim 1 [2; 3; 4] [s_inf; s_inf; 0]; sim 2 [5; 6; 7] [0; s_inf; s_inf]]).
  set (ps := (x_ps ++ [(100, 100); (102, 100); (100, 102)])%Z).
  exists (cells_of l), (listed_cells l), (x_pts ps), (used_of l), [], (Some [1; 2; 3; 4; 5; 6; 7]), (map entry (listed_cells l)), (table_of l), (mkvr true [] [] []).
  split; [apply verifiable_cells; vm_compute; reflexivity|]. split; [vm_compute; reflexivity|]. split; [reflexivity|].
  apply (entries_wrong 2 l 2 (snd (sim 2 [5; 6; 7] [0; s_inf; s_inf])) 0).
  - vm_compute. reflexivity.
  - apply cells_live; [now apply nodupb_spec|]. right. right. left. reflexivity.
  - now left.
  - discriminate.
  - vm_compute. reflexivity.
Qed.
Print Assumptions C44_verify_neighbors_refuted.

(** Only the vertices of listed neighbors are tested: here the triangle of the points 4, 5, 6 lies inside the triangle of
    1, 2, 3. *)
Theorem C44_verify_delaunay_refuted : exists get ls pts used hull pointIds tab ftab r,
  verifiable get ls pts used hull pointIds tab ftab /\ verify (fun x => x) 2 zin get pts hull ls used pointIds tab ftab = Val r /\ v_valid r = true /\
  entries_right get /\ ~ delaunay 2 zin pts get.
Proof.
  set (l := [sim 0 [1; 2; 3] [s_inf; s_inf; s_inf]; sim 1 [4; 5; 6] [s_inf; s_inf; s_inf]]).
  set (ps := [(0, 0); (10, 0); (0, 10); (1, 1); (2, 1); (1, 2)]%Z).
  exists (cells_of l), (listed_cells l), (x_pts ps), (used_of l), [], (Some [1; 2; 3; 4; 5; 6]), (map entry (listed_cells l)), (table_of l), (mkvr true [] [] []).
  split; [apply verifiable_cells; vm_compute; reflexivity|]. split; [vm_compute; reflexivity|]. split; [reflexivity|].
  split; [now apply (entries_rightb_spec 2)|]. intros Hd.
  destruct (Hd 0 (snd (sim 0 [1; 2; 3] [s_inf; s_inf; s_inf])) 1 (snd (sim 1 [4; 5; 6] [s_inf; s_inf; s_inf])) 4) as [cs [p [H1 [H2 H3]]]].
  - apply cells_live; [now apply nodupb_spec|]. left. reflexivity.
  - apply cells_live; [now apply nodupb_spec|]. right. left. reflexivity.
  - now left.
  - vm_compute. reflexivity.
  - intros [E|[E|[E|[]]]]; discriminate.
  - assert (E : cs = [(0, 0); (10, 0); (0, 10)]%Z).
    { eapply corners_fun; [exact H1|]. repeat constructor. }
    assert (Ep : p = (1, 1)%Z) by (vm_compute in H2; congruence). subst. vm_compute in H3. discriminate.
Qed.
Print Assumptions C44_verify_delaunay_refuted.

(** Without the set of ids verify rejects a right triangulation of all finite points, unless it also has the infinite
    points among its vertices: the reserved entry 0 counts as an unused point. *)
Theorem C44_verify_zero_refuted : exists get ls pts used hull tab ftab r,
  verifiable get ls pts used hull None tab ftab /\ verify (fun x => x) 2 zin get pts hull ls used None tab ftab = Val r /\ v_valid r = false /\
  v_dups r = [] /\ v_wrong r = [] /\ v_circle r = [] /\ (forall v, is_fin_id pts v <-> In v used) /\ hull_right 2 get hull /\ no_dups get /\ entries_right get.
Proof.
  exists (cells_of x_real), (listed_cells x_real), (x_pts x_ps), (used_of x_real), [], (map entry (listed_cells x_real)), (table_of x_real), (mkvr false [] [] []).
  split; [apply verifiable_cells; vm_compute; reflexivity|]. split; [vm_compute; reflexivity|]. do 4 (split; [reflexivity|]).
  split; [|split; [|split; [now apply no_dupsb_spec|now apply (entries_rightb_spec 2)]]].
  - intros v. change (used_of x_real) with [1; 2; 3; 4]. unfold is_fin_id. change (p_off (x_pts x_ps)) with 0. change (N.of_nat (length (p_vec (x_pts x_ps)))) with 5. cbn [In]. split.
    + intros H. lia.
    + intros H. lia.
  - split; [|intros c s []]. intros c s L. pose proof (all_live_spec x_real (fun _ s => s_isfinite 2 s) eq_refl c s L) as X. cbn beta in X. congruence.
Qed.
Print Assumptions C44_verify_zero_refuted.

(** With the set of ids, points outside it are not noticed when all points are used. *)
Theorem C44_verify_ids_refuted : exists get ls pts used hull ids tab ftab r,
  verifiable get ls pts used hull (Some ids) tab ftab /\ verify (fun x => x) 2 zin get pts hull ls used (Some ids) tab ftab = Val r /\ v_valid r = true /\
  exists v, p_finite 2 v = true /\ In v used /\ ~ In v ids.
Proof.
  set (l := [sim 0 [1; 2; 3] [s_inf; s_inf; s_inf]; sim 1 [4; 2 ^ 64 - 4; 2 ^ 64 - 3] [s_inf; s_inf; s_inf]; sim 2 [4; 2 ^ 64 - 2; 2 ^ 64 - 1] [s_inf; s_inf; s_inf]]).
  exists (cells_of l), (listed_cells l), (x_pts x_ps), (used_of l), [1; 2], [1; 2; 3], (map entry (listed_cells l)), (table_of l), (mkvr true [] [] []).
  split; [apply verifiable_cells; vm_compute; reflexivity|]. split; [vm_compute; reflexivity|]. split; [reflexivity|].
  exists 4. split; [vm_compute; reflexivity|]. split; [apply isin_In; vm_compute; reflexivity|]. intros H. apply isin_In in H. vm_compute in H. discriminate.
Qed.
Print Assumptions C44_verify_ids_refuted.

(** ** C56: the fingerprint of a triangulation *)
(** Word [i] of the result is the exclusive or of the fingerprints whose last byte is [i]. *)
Theorem C56_words ls : length (tri_fp ls) = 256%nat /\
  forall i, (i < 256)%nat -> nth_error (tri_fp ls) i = Some (fold_left N.lxor (filter (fun h => N.land h 255 =? N.of_nat i) (map x_fp ls)) 0).
Proof. exact (tri_fp_spec ls). Qed.
Print Assumptions C56_words.
(** Triangulations with the same simplices (whatever their ids, cells, deleted simplices and order) have the same one. *)
Theorem C56_same over km kr g h ms rs : enum g ms -> enum h rs -> tri over km g -> tri over kr h -> no_dups g -> no_dups h ->
  same_simplices g h -> tri_fp ms = tri_fp rs.
Proof. intros H1 H2 H3 H4 H5 H6 H7. apply tri_fp_perm. exact (same_fps over km kr g h ms rs H1 H2 H3 H4 H5 H6 H7). Qed.
Print Assumptions C56_same.
Example C56_ex : tri_fp (listed_cells x_mine) = tri_fp (listed_cells x_real) /\ tri_fp (listed_cells x_real) <> repeat 0 256 /\
  tri_fp (listed_cells x_real) <> tri_fp (firstn 1 (listed_cells x_real)).
Proof. split; [vm_compute; reflexivity|]. split; intros H; vm_compute in H; discriminate. Qed.
(** Triangulations of different simplices may have the same one. *)
Theorem C56_differ_refuted : exists g h ms rs, enum g ms /\ enum h rs /\ tri (fun x => x) 3 g /\ tri (fun x => x) 3 h /\ no_dups g /\ no_dups h /\
  tri_fp ms = tri_fp rs /\ ~ same_simplices g h.
Proof.
  set (a := [sim 0 [1; 2; 10] [s_inf; s_inf; s_inf]]). set (b := [sim 0 [1; 2; 40] [s_inf; s_inf; s_inf]]).
  exists (cells_of a), (cells_of b), (listed_cells a), (listed_cells b).
  split; [now apply enum_cells|]. split; [now apply enum_cells|]. split; [now apply trib_spec|]. split; [now apply trib_spec|]. split; [now apply no_dupsb_spec|].
  split; [now apply no_dupsb_spec|]. split; [vm_compute; reflexivity|]. intros [H _].
  destruct (H 0 (snd (sim 0 [1; 2; 10] [s_inf; s_inf; s_inf]))) as [c [t [L E]]].
  - apply cells_live; [now apply nodupb_spec|]. left. reflexivity.
  - apply live_cells in L. change (filter (liveb b) b) with b in L. destruct L as [L|[]]. injection L as <- <-. discriminate.
Qed.
Print Assumptions C56_differ_refuted.
