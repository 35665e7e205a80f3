(** C42: the merged triangulation. *)
From Verif Require NbrProps.
From Verif Require Import Outcome ListUtil WordsModel RangeModel BlockModel BlockProofs BlockSpec SimplexModel SimplexProofs Pool VisitModel NbrModel NbrSpec WhereModel MergeModel MergeSpec MergeProofs MergeUpdate.
From Coq Require Import Permutation.
Local Open Scope nat_scope.

(** For every schedule: what can be seen in the merged triangulation (the cells whose id is not the infinite one) are the simplices of the
    partial triangulations outside the edge, and of the edge triangulation those that lie in no single partition or have the vertices of
    an edge simplex; each under its id and unchanged. *)
Theorem C42_content : forall over D parts partials edge edgeDT, merge_input over D parts partials edge edgeDT ->
  forall out inserted table marks, merge_run over D parts partials edge edgeDT out inserted table marks ->
  forall i s, holds (d_arr out) i s /\ x_id s <> s_inf <->
    (stored partials i s /\ x_id s <> s_inf /\ ~ In i edge) \/ (holds (d_arr edgeDT) i s /\ x_id s <> s_inf /\ wanted parts partials edge s).
Proof. exact run_content. Qed.
Print Assumptions C42_content.

(** The list of inserted simplices has each simplex taken from the edge triangulation once. *)
Theorem C42_inserted : forall over D parts partials edge edgeDT, merge_input over D parts partials edge edgeDT ->
  forall out inserted table marks, merge_run over D parts partials edge edgeDT out inserted table marks ->
  NoDup inserted /\ forall i, In i inserted <-> exists s, holds (d_arr edgeDT) i s /\ x_id s <> s_inf /\ wanted parts partials edge s.
Proof. exact run_inserted. Qed.
Print Assumptions C42_inserted.

(** The hull has the hull simplices of the parts outside the edge and the simplices taken that have an infinite vertex. *)
Theorem C42_hull : forall over D parts partials edge edgeDT, merge_input over D parts partials edge edgeDT ->
  forall out inserted table marks, merge_run over D parts partials edge edgeDT out inserted table marks ->
  forall i, In i (d_hull out) <-> ((exists p, In p partials /\ In i (d_hull p)) /\ ~ In i edge) \/
    exists s v, holds (d_arr edgeDT) i s /\ x_id s <> s_inf /\ wanted parts partials edge s /\ In v (x_verts s) /\ p_finite D v = false.
Proof. exact run_hull. Qed.
Print Assumptions C42_hull.

(** The face table lists the finite neighbors, outside the edge, of edge simplices and the simplices taken, each for all of its faces, and
    nothing else. *)
Theorem C42_table : forall over D parts partials edge edgeDT, merge_input over D parts partials edge edgeDT ->
  forall out inserted table marks, merge_run over D parts partials edge edgeDT out inserted table marks ->
  (forall p, In p partials -> (d_mark p + 2 < 256)%N) ->
  forall h i, In (h, i) table <->
    ((exists e s, In e edge /\ stored partials e s /\ In i (x_nbrs s) /\ i <> s_inf /\ ~ In i edge) /\
     exists t d, stored partials i t /\ d < length (x_verts t) /\ face_fp over t d = Val h) \/
    exists s d, holds (d_arr edgeDT) i s /\ x_id s <> s_inf /\ wanted parts partials edge s /\ d < length (x_verts s) /\ face_fp over s d = Val h.
Proof. exact run_table. Qed.
Print Assumptions C42_table.

(** The merge and the neighbor update together: if no face is shared by more than two simplices of the merged triangulation, and neighbors
    that still exist sit in the right slot and are mutual, then after the update each simplex taken from the edge triangulation has in
    each slot a simplex of the merged triangulation sharing just that face, which has it as a neighbor in turn; or infinity, if no other
    simplex taken shares the face. *)
Theorem C42_update : forall over D parts partials edge edgeDT, merge_input over D parts partials edge edgeDT ->
  forall out inserted table marks, merge_run over D parts partials edge edgeDT out inserted table marks ->
  (forall p, In p partials -> (d_mark p + 2 < 256)%N) -> forall tbl, (forall h c, In c (tbl h) <-> In (h, c) table) ->
  forall nbr0 order, Permutation order inserted ->
  (forall p, In p partials -> (d_mark p + 4 < 256)%N) -> (d_mark edgeDT + 2 < 256)%N ->
  (forall i s, stored (edgeDT :: partials) i s -> x_id s <> s_inf -> length (x_verts s) = N.to_nat D + 1) ->
  one_each (d_get (d_arr out)) -> old_right (d_get (d_arr out)) nbr0 ->
  forall sh, pexec (u_step over (d_get (d_arr out)) tbl (d_mark out)) (u_start nbr0 marks order) (mkp sh []) ->
  forall id s d, In id inserted -> live (d_get (d_arr out)) id s -> d < length (x_verts s) ->
  (u_nbr sh id d = s_inf /\ forall c, In c inserted -> ~ fits (d_get (d_arr out)) s d c) \/
  (exists t d', live (d_get (d_arr out)) (u_nbr sh id d) t /\ opposite s d t /\ opposite t d' s /\ u_nbr sh (u_nbr sh id d) d' = id).
Proof. exact update_mutual. Qed.
Print Assumptions C42_update.

(** The steps of a merge are defined and end: filter() returns; the loop starts, never throws and ends; the table is built if the neighbors
    of edge simplices are stored. *)
Theorem C42_filter_returns : forall over D parts partials edge edgeDT, merge_input over D parts partials edge edgeDT ->
  forall all order, merge_all partials all -> Permutation order edge -> exists d, d_filter all edge order = Val (Some d).
Proof. exact filter_ok. Qed.
Print Assumptions C42_filter_returns.
Theorem C42_table_safe : forall over D parts partials edge edgeDT, merge_input over D parts partials edge edgeDT ->
  forall all order, merge_all partials all -> Permutation order edge -> forall flt, d_filter all edge order = Val (Some flt) ->
  forall worder, Permutation worder edge -> (d_mark flt + 2 < 256)%N ->
  (forall e s n, In e edge -> stored partials e s -> In n (x_nbrs s) -> n <> s_inf -> exists t, stored partials n t) ->
  psafe (w_step over (d_get (d_arr flt)) edge (d_mark flt)) (w_start (fun id => match d_get (d_arr flt) id with Some s => x_mark s | None => 0%N end) worder).
Proof. exact where_safe. Qed.
Print Assumptions C42_table_safe.
Theorem C42_loop_safe : forall over D parts partials edge edgeDT, merge_input over D parts partials edge edgeDT ->
  forall all order, merge_all partials all -> Permutation order edge -> forall flt, d_filter all edge order = Val (Some flt) ->
  forall del, Permutation del edge -> fp_sorted (d_arr flt) del ->
  forall grain tree start, v_start d_valid (d_arr edgeDT) grain tree = Val start -> psafe (v_step d_valid (m_body parts (d_arr flt) del)) start.
Proof. exact loop_safe. Qed.
Print Assumptions C42_loop_safe.
Theorem C42_loop_ends : forall over D parts partials edge edgeDT, merge_input over D parts partials edge edgeDT ->
  forall all order, merge_all partials all -> Permutation order edge -> forall flt, d_filter all edge order = Val (Some flt) ->
  forall del, Permutation del edge -> fp_sorted (d_arr flt) del ->
  forall grain tree start, v_start d_valid (d_arr edgeDT) grain tree = Val start -> pterminates (v_step d_valid (m_body parts (d_arr flt) del)) start.
Proof. exact loop_ends. Qed.
Print Assumptions C42_loop_ends.

(** A case.  Two partitions sharing one infinite point, three simplices, and one simplex and a cell never filled; of the edge
    triangulation 300 has the vertices of the deleted 101, 301 and 303 have vertices in both partitions, 302 lies in the first one without
    having been there. *)
Definition mov (_ : N) : N := 0.
Definition mtri (id : N) (vs ns : list N) : simplex := mks id vs ns (gen_fp mov vs) 0.
Definition mI : N := p_inf 2.
Definition m_parts : list part := [(0, [1; 2; 3; 4; mI]%N); (1, [11; 12; 13; mI]%N)].
Definition m_b0 : block simplex := mkblk 100 103 [mtri 100 [1; 2; 3] [101; s_inf; s_inf]; mtri 101 [2; 3; 4] [102; 100; s_inf]; mtri 102 [3; 4; mI] [101; s_inf; s_inf]]%N.
Definition m_b1 : block simplex := mkblk 200 202 [mtri 200 [11; 12; 13] [s_inf; s_inf; s_inf]; mks s_inf [] [] 0 0]%N.
Definition m_be : block simplex := mkblk 300 304 [mtri 300 [2; 3; 4] [301; 303; 302]; mtri 301 [3; 4; 11] [303; s_inf; 300]; mtri 302 [1; 2; 4] [300; s_inf; s_inf]; mtri 303 [4; 11; mI] [s_inf; s_inf; 301]]%N.
Definition m_p0 : dsims := mkd [m_b0] [102]%N 0.
Definition m_p1 : dsims := mkd [m_b1] [] 2.
Definition m_e : dsims := mkd [m_be] [303]%N 0.
Definition m_edge : list N := [101; 102; 200]%N.
Definition m_all : dsims := mkd [m_b0; m_b1] [102]%N 2.
Definition m_flt : dsims := match d_filter m_all m_edge m_edge with Val (Some d) => d | _ => m_all end.
Definition m_del : list N := [101; 200; 102]%N.
Definition m_get := d_get (d_arr m_flt).
Definition m_m0 := fun id => match m_get id with Some s => x_mark s | None => 0%N end.
Definition m_start : pool (vsh simplex) vtask := match v_start d_valid (d_arr m_e) 1 (Split Run Run) with Val a => a | _ => mkp (mkv [] []) [] end.
Definition m_wrun := prun (w_step mov m_get m_edge 2) (w_start m_m0 m_edge) (repeat 0 24).
Definition m_w : wsh := match m_wrun with Some a => p_sh a | None => mkw m_m0 [] end.
Definition m_vrun := prun (v_step d_valid (m_body m_parts (d_arr m_flt) m_del)) m_start (0 :: 1 :: repeat 0 11).
Definition m_fin : vsh simplex := match m_vrun with Some a => p_sh a | None => mkv [] [] end.
Definition m_out : dsims := mkd (d_arr m_flt ++ v_arr m_fin) (d_hull m_flt ++ m_hull 2 m_parts (d_arr m_flt) m_del (v_log m_fin)) 4.
Definition m_ins : list N := m_inserted m_parts (d_arr m_flt) m_del (v_log m_fin).
Definition m_tab : list (N * N) := w_tab m_w ++ m_faces mov m_parts (d_arr m_flt) m_del (v_log m_fin).

Lemma holds_one (b : block simplex) i s : holds [b] i s -> exists k, nth_error (b_data b) k = Some s /\ i = (b_min b + N.of_nat k)%N.
Proof.
  intros [k [c [E [L Es]]]]. destruct k as [|k]; [|destruct k; discriminate]. injection E as <-. exists (N.to_nat (i - b_min b)). split; [exact Es|lia].
Qed.
Ltac cells H := apply holds_one in H; cbn [b_data b_min m_b0 m_b1 m_be] in H; destruct H as [[|[|[|[|k]]]] [E ->]]; cbn [nth_error] in E; try (destruct k; discriminate E); try discriminate E; injection E as <-.
Ltac put M i v := match type of M with made ?d ?l => let r := eval vm_compute in (ba_set l i 0 v) in match r with Val (Some (?l', ?h)) =>
  let M' := fresh in assert (M' : made d l') by (apply (made_write d l i 0 v l' h M); vm_compute; reflexivity); clear M; rename M' into M end end.
Lemma m_made b d : In b [m_b0; m_b1; m_be] -> d = mks s_inf [] [] 0 0 -> made d [b].
Proof.
  intros Hb ->. destruct Hb as [<-|[<-|[<-|[]]]].
  - pose proof (made_new (mks s_inf [] [] 0 0) 100 103 eq_refl eq_refl) as M.
    put M 100%N (mtri 100 [1; 2; 3] [101; s_inf; s_inf])%N. put M 101%N (mtri 101 [2; 3; 4] [102; 100; s_inf])%N. put M 102%N (mtri 102 [3; 4; mI] [101; s_inf; s_inf])%N. exact M.
  - pose proof (made_new (mks s_inf [] [] 0 0) 200 202 eq_refl eq_refl) as M. put M 200%N (mtri 200 [11; 12; 13] [s_inf; s_inf; s_inf])%N. exact M.
  - pose proof (made_new (mks s_inf [] [] 0 0) 300 304 eq_refl eq_refl) as M.
    put M 300%N (mtri 300 [2; 3; 4] [301; 303; 302])%N. put M 301%N (mtri 301 [3; 4; 11] [303; s_inf; 300])%N. put M 302%N (mtri 302 [1; 2; 4] [300; s_inf; s_inf])%N. put M 303%N (mtri 303 [4; 11; mI] [s_inf; s_inf; 301])%N. exact M.
Qed.
Lemma m_proper p : In p [m_e; m_p0; m_p1] -> proper mov p.
Proof.
  assert (W : forall id a b c ns, (a < b)%N -> (b < c)%N -> (c < 2 ^ 64)%N -> well mov (mtri id [a; b; c] ns)).
  { intros id a b c ns H1 H2 H3. split; [reflexivity|]. split; [|split; [discriminate|]]. { repeat constructor; lia. } intros v [<-|[<-|[<-|[]]]]; lia. }
  intros [<-|[<-|[<-|[]]]] i s H; cells H; (split; [discriminate|]; split; [vm_compute; discriminate|]); (try now left); right; (split; [reflexivity|]); apply W; reflexivity.
Qed.
Lemma m_input : merge_input mov 2 m_parts [m_p0; m_p1] m_edge m_e.
Proof.
  constructor.
  - vm_compute; discriminate.
  - discriminate.
  - intros p Hp. split; [|apply m_proper; exact Hp]. apply (made_wf (mks s_inf [] [] 0 0)). destruct Hp as [<-|[<-|[<-|[]]]]; (apply m_made; [cbn; tauto|reflexivity]).
  - assert (N0 : forall a b : block simplex, (b_max a <= b_min b \/ b_max b <= b_min a)%N -> no_common [a] [b]).
    { intros a b L i s t [k [c [Ec [Hc _]]]] [k' [c' [Ec' [Hc' _]]]]. apply nth_error_In in Ec, Ec'. destruct Ec as [<-|[]], Ec' as [<-|[]]. lia. }
    apply FOP_cons; [apply Forall_cons; [|apply Forall_cons; [|apply Forall_nil]]|apply FOP_cons; [apply Forall_cons; [|apply Forall_nil]|apply FOP_cons; [apply Forall_nil|apply FOP_nil]]]; apply N0; [right|right|left]; vm_compute; discriminate.
  - reflexivity.
  - split; [|split].
    + intros [|[|k]] id pts E; [injection E as <- <-; reflexivity|injection E as <- <-; reflexivity|destruct k; discriminate].
    + intros id pts id' pts' v [E|[E|[]]] [E'|[E'|[]]] H H' F; injection E as <- <-; injection E' as <- <-; try reflexivity; exfalso; cbn [In] in H, H';
        (repeat (destruct H as [<-|H]; [|])); try destruct H; (repeat (destruct H' as [H'|H'])); try discriminate H'; try destruct H'; vm_compute in F; discriminate F.
    + intros id pts id' pts' v [E|[E|[]]] [E'|[E'|[]]] F H; injection E as <- <-; injection E' as <- <-; cbn [In] in *;
        (repeat (destruct H as [<-|H]; [|])); try destruct H; try (vm_compute in F; discriminate F); tauto.
  - intros e [<-|[<-|[<-|[]]]].
    + exists (mtri 101 [2; 3; 4] [102; 100; s_inf])%N. split; [|discriminate]. exists m_p0. split; [now left|]. exists 0, m_b0. split; [reflexivity|]. split; [split; vm_compute; [discriminate|reflexivity]|reflexivity].
    + exists (mtri 102 [3; 4; mI] [101; s_inf; s_inf])%N. split; [|discriminate]. exists m_p0. split; [now left|]. exists 0, m_b0. split; [reflexivity|]. split; [split; vm_compute; [discriminate|reflexivity]|reflexivity].
    + exists (mtri 200 [11; 12; 13] [s_inf; s_inf; s_inf])%N. split; [|discriminate]. exists m_p1. split; [right; now left|]. exists 0, m_b1. split; [reflexivity|]. split; [split; vm_compute; [discriminate|reflexivity]|reflexivity].
  - intros i s v r H _ Ev. cells H; injection Ev as <- _; exists 0, [1; 2; 3; 4; mI]%N; (split; [now left|cbn; auto]).
Qed.
Lemma m_sorted (l : list (block simplex)) : (forall i j a b, i < j -> nth_error l i = Some a -> nth_error l j = Some b -> (b_min a <= b_min b)%N) -> sort_result l l.
Proof. intros H. split; [apply Permutation_refl|exact H]. Qed.
Lemma m_run : merge_run mov 2 m_parts [m_p0; m_p1] m_edge m_e m_out m_ins m_tab (m_marks (d_arr m_flt) (v_arr m_fin) m_w).
Proof.
  apply (merge_run_intro _ _ _ _ _ _ _ _ _ _ m_all m_edge m_flt m_edge m_w m_del 1 (Split Run Run) m_start m_fin (mkd (d_arr m_flt ++ v_arr m_fin) (d_hull m_flt ++ []) 4)).
  - eapply merge_next; [|apply merge_done]. split; [|split; reflexivity]. apply m_sorted. intros [|[|i]] [|[|j]] a b L Ea Eb; try lia; try (destruct i; discriminate); try (destruct j; discriminate). injection Ea as <-. injection Eb as <-. vm_compute. discriminate.
  - apply Permutation_refl.
  - vm_compute. reflexivity.
  - apply Permutation_refl.
  - assert (E : m_wrun = Some (mkp m_w [])) by (vm_compute; reflexivity). eapply prun_exec; [apply pexec_start|exact E].
  - apply perm_skip, perm_swap.
  - intros i j a b s t L Ea Eb Es Et. destruct i as [|[|[|i]]]; [| | |destruct i; discriminate]; (destruct j as [|[|[|j]]]; [| | |destruct j; discriminate]); try lia; injection Ea as <-; injection Eb as <-;
      vm_compute in Es, Et; injection Es as <-; injection Et as <-; vm_compute; discriminate.
  - vm_compute. reflexivity.
  - assert (E : m_vrun = Some (mkp m_fin [])) by (vm_compute; reflexivity). eapply prun_exec; [apply pexec_start|exact E].
  - apply Permutation_refl.
  - apply Permutation_refl.
  - split; [|split; reflexivity]. cbn [d_arr]. assert (L : map (@b_min simplex) (d_arr m_flt ++ v_arr m_fin) = [100; 200; 300]%N) by (vm_compute; reflexivity). apply m_sorted.
    intros i j a b Lt Ea Eb. apply (map_nth_error (@b_min simplex)) in Ea, Eb. rewrite L in Ea, Eb. destruct i as [|[|[|i]]]; [| | |destruct i; discriminate]; (destruct j as [|[|[|j]]]; [| | |destruct j; discriminate]); try lia;
      injection Ea as <-; injection Eb as <-; vm_compute; discriminate.
  - exists (m_hull 2 m_parts (d_arr m_flt) m_del (v_log m_fin)). split; [apply Permutation_refl|]. unfold m_out. cbn [d_arr d_hull d_mark]. now rewrite app_nil_r.
  - reflexivity.
Qed.
Example C42_ex : merge_input mov 2 m_parts [m_p0; m_p1] m_edge m_e /\ merge_run mov 2 m_parts [m_p0; m_p1] m_edge m_e m_out m_ins m_tab (m_marks (d_arr m_flt) (v_arr m_fin) m_w) /\
  filter (fun i => s_finite i) (map x_id (flat_map (@b_data simplex) (d_arr m_out))) = [100; 300; 301; 303]%N /\ m_ins = [303; 301; 300]%N /\ d_hull m_out = [303]%N /\ length m_tab = 12.
Proof. split; [exact m_input|]. split; [exact m_run|]. repeat split; vm_compute; reflexivity. Qed.

(** The update after it: 100 and 300 become neighbors. *)
Definition m_tbl (h : N) : list N := map snd (filter (fun e => (fst e =? h)%N) m_tab).
Definition m_nbr0 := cell_nbr (d_arr m_out).
Definition m_lives : list (N * simplex) := [(100, mtri 100 [1; 2; 3] [101; s_inf; s_inf]); (300, mtri 300 [2; 3; 4] [301; 303; 302]); (301, mtri 301 [3; 4; 11] [303; s_inf; 300]); (303, mtri 303 [4; 11; mI] [s_inf; s_inf; 301])]%N.
Lemma m_live i s : live (d_get (d_arr m_out)) i s -> In (i, s) m_lives.
Proof.
  intros H. apply (live_iff _ _ _ _ _ _ m_input _ _ _ _ m_run) in H. destruct H as [[[p [[<-|[<-|[]]] H]] [Hx He]]|[H [Hx Hw]]].
  - cells H; [now left| |]; exfalso; apply He; cbn; auto.
  - cells H; [|]; exfalso; [apply He; cbn; auto|now apply Hx].
  - cells H; [right; left; reflexivity|right; right; left; reflexivity| |right; right; right; left; reflexivity]. exfalso. destruct Hw as [Hw|[e [t [He [[p [[<-|[<-|[]]] H]] Ev]]]]].
    + apply Hw. exists 0, [1; 2; 3; 4; mI]%N. split; [now left|]. intros v [<-|[<-|[<-|[]]]]; cbn; auto.
    + cells H; discriminate Ev.
    + cells H; discriminate Ev.
Qed.
Lemma tbl_of (tab : list (N * N)) h c : In c (map snd (filter (fun e => (fst e =? h)%N) tab)) <-> In (h, c) tab.
Proof.
  rewrite in_map_iff. split.
  - intros [[h' c'] [Ec H]]. apply filter_In in H. destruct H as [H E]. apply N.eqb_eq in E. cbn [fst snd] in *. subst c' h'. exact H.
  - intros H. exists (h, c). split; [reflexivity|]. apply filter_In. split; [exact H|]. apply N.eqb_refl.
Qed.
Lemma m_tbl_iff h c : In c (m_tbl h) <-> In (h, c) m_tab.
Proof. exact (tbl_of m_tab h c). Qed.
Lemma m_slot (s t : simplex) d i : In (i, s) m_lives -> opposite s d t -> d < 3.
Proof.
  intros Hs [v [Ev _]]. assert (L : length (x_verts s) = 3) by (destruct Hs as [E|[E|[E|[E|[]]]]]; injection E as _ <-; reflexivity). rewrite <- L. apply nth_error_Some. congruence.
Qed.
Lemma m_one : one_each (d_get (d_arr m_out)).
Proof.
  intros id s d c c' Hl [_ [t [Hc Ho]]] [_ [t' [Hc' Ho']]]. apply m_live in Hl, Hc, Hc'. pose proof (m_slot _ _ _ _ Hl Ho) as Hd. apply NbrProps.oppb_spec in Ho, Ho'.
  assert (K : forallb (fun p => forallb (fun q => forallb (fun q' => forallb (fun d => negb (NbrProps.oppb (snd p) d (snd q) && NbrProps.oppb (snd p) d (snd q')) || (fst q =? fst q')%N) (seq 0 3)) m_lives) m_lives) m_lives = true) by (vm_compute; reflexivity).
  rewrite forallb_forall in K. pose proof (K _ Hl) as K1. rewrite forallb_forall in K1. pose proof (K1 _ Hc) as K2. rewrite forallb_forall in K2. pose proof (K2 _ Hc') as K3. rewrite forallb_forall in K3.
  assert (Hs : In d (seq 0 3)) by (apply in_seq; lia). pose proof (K3 _ Hs) as K4. cbn [fst snd] in K4. rewrite Ho, Ho' in K4. cbn [andb negb orb] in K4. now apply N.eqb_eq.
Qed.
Lemma m_old : old_right (d_get (d_arr m_out)) m_nbr0.
Proof.
  intros id s d t e Hl Hd Ht Ho. apply m_live in Hl, Ht. pose proof (m_slot _ _ _ _ Hl Ho) as He. apply NbrProps.oppb_spec in Ho.
  assert (K : forallb (fun p => forallb (fun q => forallb (fun d => forallb (fun e => negb ((m_nbr0 (fst p) d =? fst q)%N && NbrProps.oppb (snd p) e (snd q)) ||
    (NbrProps.oppb (snd p) d (snd q) && existsb (fun d' => (m_nbr0 (fst q) d' =? fst p)%N) (seq 0 3))) (seq 0 3)) (seq 0 3)) m_lives) m_lives = true) by (vm_compute; reflexivity).
  assert (L : forall i x, In (i, x) m_lives -> length (x_verts x) = 3) by (intros i x [E|[E|[E|[E|[]]]]]; injection E as _ <-; reflexivity). pose proof (L _ _ Hl) as Ls. pose proof (L _ _ Ht) as Lt.
  rewrite forallb_forall in K. pose proof (K _ Hl) as K1. rewrite forallb_forall in K1. pose proof (K1 _ Ht) as K2. rewrite forallb_forall in K2. assert (Hs : In d (seq 0 3)) by (apply in_seq; lia). pose proof (K2 _ Hs) as K3.
  rewrite forallb_forall in K3. assert (Hs' : In e (seq 0 3)) by (apply in_seq; lia). pose proof (K3 _ Hs') as K4. cbn [fst snd] in K4. rewrite Ho, N.eqb_refl in K4. cbn [andb negb orb] in K4. apply andb_prop in K4.
  destruct K4 as [A B]. split; [now apply NbrProps.oppb_spec|]. apply existsb_exists in B. destruct B as [d' [Hd' E]]. exists d'. apply in_seq in Hd'. split; [lia|now apply N.eqb_eq].
Qed.
Lemma m_three i s : stored (m_e :: [m_p0; m_p1]) i s -> x_id s <> s_inf -> length (x_verts s) = N.to_nat 2 + 1.
Proof. intros [p [[<-|[<-|[<-|[]]]] H]] Hx; cells H; try reflexivity. now elim Hx. Qed.
Definition m_urun := prun (u_step mov (d_get (d_arr m_out)) m_tbl 4) (u_start m_nbr0 (m_marks (d_arr m_flt) (v_arr m_fin) m_w) m_ins) (repeat 0 68).
Definition m_sh : ush := match m_urun with Some a => p_sh a | None => mku m_nbr0 (fun _ => 0%N) end.
Lemma m_urun_exec : pexec (u_step mov (d_get (d_arr m_out)) m_tbl 4) (u_start m_nbr0 (m_marks (d_arr m_flt) (v_arr m_fin) m_w) m_ins) (mkp m_sh []).
Proof.
  assert (E : exists sh, m_urun = Some (mkp sh [])) by (eexists; vm_compute; reflexivity). destruct E as [sh E]. replace m_sh with sh by (unfold m_sh; now rewrite E).
  eapply prun_exec; [apply pexec_start|exact E].
Qed.
Example C42_update_ex : forall id s d, In id m_ins -> live (d_get (d_arr m_out)) id s -> d < length (x_verts s) ->
  (u_nbr m_sh id d = s_inf /\ forall c, In c m_ins -> ~ fits (d_get (d_arr m_out)) s d c) \/
  (exists t d', live (d_get (d_arr m_out)) (u_nbr m_sh id d) t /\ opposite s d t /\ opposite t d' s /\ u_nbr m_sh (u_nbr m_sh id d) d' = id).
Proof.
  apply (C42_update mov 2 m_parts [m_p0; m_p1] m_edge m_e m_input m_out m_ins m_tab _ m_run) with (tbl := m_tbl) (nbr0 := m_nbr0) (order := m_ins).
  - intros p [<-|[<-|[]]]; reflexivity.
  - exact m_tbl_iff.
  - apply Permutation_refl.
  - intros p [<-|[<-|[]]]; reflexivity.
  - reflexivity.
  - exact m_three.
  - exact m_one.
  - exact m_old.
  - exact m_urun_exec.
Qed.
Example C42_update_ex' : map (fun i => map (u_nbr m_sh i) [0; 1; 2]) [100; 300]%N = [[300; s_inf; s_inf]; [301; s_inf; 100]]%N.
Proof. vm_compute. reflexivity. Qed.
