(** C43: the face table used by the neighbor update. *)
From Verif Require Import Outcome ListUtil WordsModel SimplexModel SimplexProofs Pool NbrModel WhereModel WhereSpec WhereProofs.
Local Open Scope nat_scope.

(** When the build is through, for every execution, the table lists a simplex for a hash just when the simplex is a finite neighbor, outside
    the edge, of an edge simplex and the hash is the fingerprint of one of its faces.
    Hypotheses: marks are not above the mark of the triangulation, which has room for two more; the loop covers the edge. *)
Theorem C43_table : forall over get edge mark0 m0, (mark0 + 2 < 256)%N -> (forall id, m0 id <= mark0)%N ->
  forall order, (forall e, In e order <-> In e edge) ->
  forall sh, pexec (w_step over get edge mark0) (w_start m0 order) (mkp sh []) ->
  forall h n, In (h, n) (w_tab sh) <-> inward get edge n /\ face_of over get n h.
Proof. exact w_result. Qed.
Print Assumptions C43_table.

(** No step is undefined if edge simplices and their inner neighbors are stored, and every execution ends. *)
Theorem C43_table_safe : forall over get edge mark0 m0, (mark0 + 2 < 256)%N -> (forall id, m0 id <= mark0)%N ->
  forall order, (forall e, In e order <-> In e edge) ->
  (forall e, In e edge -> exists s, get e = Some s) -> (forall n, inward get edge n -> exists s, get n = Some s) -> psafe (w_step over get edge mark0) (w_start m0 order).
Proof. exact w_safe. Qed.
Print Assumptions C43_table_safe.
Theorem C43_table_ends : forall over get edge mark0 m0 order, pterminates (w_step over get edge mark0) (w_start m0 order).
Proof. exact w_terminates. Qed.
Print Assumptions C43_table_ends.

(** A case: 10 and 11 form the edge and share the inner neighbor 20; 21 is another one. *)
Definition wv (_ : N) : N := 0.
Definition wtri (id : N) (vs ns : list N) : simplex := mks id vs ns (gen_fp wv vs) 0.
Definition w_get (id : N) : option simplex :=
  if (id =? 10)%N then Some (wtri 10 [1; 2; 3]%N [11; 20; s_inf]%N) else if (id =? 11)%N then Some (wtri 11 [2; 3; 4]%N [21; 20; 10]%N)
  else if (id =? 20)%N then Some (wtri 20 [3; 5; 6]%N [10; 11; s_inf]%N) else if (id =? 21)%N then Some (wtri 21 [3; 4; 7]%N [11; s_inf; s_inf]%N) else None.
Definition w_edge : list N := [10; 11]%N.

Lemma w_ex_stored n : inward w_get w_edge n -> exists s, w_get n = Some s.
Proof.
  intros [e [s [He [Eg [Hn [Hf Hne]]]]]]. destruct He as [<-|[<-|[]]]; injection Eg as <-; cbn [x_nbrs wtri In] in Hn;
    (destruct Hn as [<-|[<-|[<-|[]]]]; try contradiction; try (now eexists); exfalso; apply Hne; cbn; tauto).
Qed.
Definition w_run (k : N) (choose : list nat) : option (pool wsh wtask) := prun (w_step wv w_get w_edge k) (w_start (fun _ => 0%N) w_edge) choose.
Lemma w_run_exec k choose b : w_run k choose = Some b -> pexec (w_step wv w_get w_edge k) (w_start (fun _ => 0%N) w_edge) b.
Proof. intros E. eapply prun_exec; [apply pexec_start|exact E]. Qed.


(** One task after the other: each inner neighbor is listed once for each face. *)
Definition w_seq : list nat := repeat 0 25.
Example C43_table_ex : exists sh, pexec (w_step wv w_get w_edge 0) (w_start (fun _ => 0%N) w_edge) (mkp sh []) /\ map snd (w_tab sh) = [21; 21; 21; 20; 20; 20]%N.
Proof. eexists. split; [apply (w_run_exec 0 w_seq); vm_compute; reflexivity|reflexivity]. Qed.
Example C43_table_safe_ex : psafe (w_step wv w_get w_edge 0) (w_start (fun _ => 0%N) w_edge).
Proof.
  apply C43_table_safe; [reflexivity|intros; apply N.le_refl|intros; tauto| |exact w_ex_stored]. intros e [<-|[<-|[]]]; now eexists.
Qed.

(** That a simplex is listed at most once for each of its faces is false: two tasks that both see the neighbor unmarked both list it. *)
Definition w_race : list nat := repeat 0 4 ++ repeat 1 11 ++ repeat 0 15.
Theorem C43_table_once_refuted : exists over get edge m0 sh, (forall id, m0 id <= 0)%N /\
  pexec (w_step over get edge 0) (w_start m0 edge) (mkp sh []) /\ exists h n s, get n = Some s /\
  (forall i j, face_fp over s i = Val h -> face_fp over s j = Val h -> i = j) /\ length (filter (fun e => (fst e =? h)%N && (snd e =? n)%N) (w_tab sh)) = 2.
Proof.
  exists wv, w_get, w_edge, (fun _ => 0%N). eexists. split; [intros; apply N.le_refl|]. split; [apply (w_run_exec 0 w_race); vm_compute; reflexivity|].
  exists 289%N, 20%N. eexists. split; [reflexivity|]. split; [|vm_compute; reflexivity].
  assert (H : forall i, face_fp wv (wtri 20 [3; 5; 6] [10; 11; s_inf])%N i = Val 289%N -> i = 0).
  { intros [|[|[|i]]] E; [reflexivity|vm_compute in E; discriminate|vm_compute in E; discriminate|]. unfold face_fp in E. cbn [x_verts wtri nth_error] in E. destruct i; discriminate. }
  intros i j Hi Hj. now rewrite (H i Hi), (H j Hj).
Qed.
Print Assumptions C43_table_once_refuted.

(** Without room for the two marks the table is wrong: at 254 the mark of a finished simplex is 0, so all edge simplices look finished
    and the table stays empty. *)
Theorem C43_table_wrap_refuted : exists over get edge m0 sh, (forall id, m0 id <= 254)%N /\
  pexec (w_step over get edge 254) (w_start m0 edge) (mkp sh []) /\ w_tab sh = [] /\ exists h n, inward get edge n /\ face_of over get n h.
Proof.
  exists wv, w_get, w_edge, (fun _ => 0%N). eexists. split; [intros; discriminate|]. split; [apply (w_run_exec 254 [0; 0]); vm_compute; reflexivity|]. split; [reflexivity|].
  eexists. exists 20%N. split.
  - exists 10%N. eexists. split; [now left|]. split; [reflexivity|]. split; [right; left; reflexivity|]. split; [discriminate|]. intros [H|[H|[]]]; discriminate.
  - eexists. exists 0. split; [reflexivity|]. split; [apply Nat.lt_0_succ|]. reflexivity.
Qed.
Print Assumptions C43_table_wrap_refuted.
