(** C41: the edge extracted by getEdge does not depend on the order in which the work is done. *)
From Verif Require Import Outcome ListUtil WordsModel SimplexModel Pool EdgeModel EdgeSpec EdgeProofs.
Local Open Scope nat_scope.

(** When all calls of getEdge are through, the simplices collected are exactly those on the edge, and the points are exactly the
    infinite points and the vertices of the simplices on the edge; for every execution.
    Hypotheses: at most 30 dimensions; ids on the hull and of neighbors refer to simplices with that id; the marks of the simplices are
    not above the mark of their triangulation, which has room for two more. *)
Theorem C41_result : forall D, (D <= 30)%N -> forall np get hull mark0 hits m0, linked np get hull ->
  (forall p, p < np -> (mark0 p + 2 < 256)%N) -> (forall p id, p < np -> (m0 p id <= mark0 p)%N) ->
  forall sh, pexec (e_step np get hull mark0 hits) (e_start D np m0) (mkp sh []) ->
  (forall x, In x (e_simp sh) <-> exists p s, on_edge np get hull hits p x s) /\
  (forall v, In v (e_pts sh) <-> (0 < np /\ (p_inf D <= v < 2 ^ 64)%N) \/ exists p id s, on_edge np get hull hits p id s /\ In v (x_verts s)).
Proof. exact e_result. Qed.
Print Assumptions C41_result.

(** No execution does anything undefined ... *)
Theorem C41_safe : forall D, (D <= 30)%N -> forall np get hull mark0 hits m0, linked np get hull ->
  (forall p, p < np -> (mark0 p + 2 < 256)%N) -> (forall p id, p < np -> (m0 p id <= mark0 p)%N) ->
  psafe (e_step np get hull mark0 hits) (e_start D np m0).
Proof. exact e_safe. Qed.
Print Assumptions C41_safe.

(** ... or goes on for ever, or stops with work left. *)
Theorem C41_ends : forall D, (D <= 30)%N -> forall np get hull mark0 hits m0, linked np get hull ->
  (forall p, p < np -> (mark0 p + 2 < 256)%N) -> (forall p id, p < np -> (m0 p id <= mark0 p)%N) ->
  forall ids, (forall p id s, p < np -> get p id = Some s -> In id ids) ->
  pterminates (e_step np get hull mark0 hits) (e_start D np m0) /\
  forall a, pexec (e_step np get hull mark0 hits) (e_start D np m0) a -> p_tasks a = [] \/ exists b, pstep (e_step np get hull mark0 hits) a b.
Proof.
  intros D HD np get hull mark0 hits m0 Hl Hm H0 ids Hids. split; [exact (e_terminates D HD np get hull mark0 hits m0 Hl Hm H0 ids Hids)|].
  intros a Ha. apply pool_moves. intros t Ht. exact (e_safe D HD np get hull mark0 hits m0 Hl Hm H0 a t Ha Ht).
Qed.
Print Assumptions C41_ends.

(** A case: two partitions; in the first the simplices 10 (on the hull) and 11 cross, 12 does not, and 13 crosses but lies behind 12. *)
Definition ex_get (p : nat) (id : N) : option simplex :=
  match p with
  | O => if (id =? 10)%N then Some (mks 10 [1; 2; 3]%N [11; s_inf; 12]%N 0 0) else if (id =? 11)%N then Some (mks 11 [2; 3; 4]%N [10; 12; s_inf]%N 0 0)
         else if (id =? 12)%N then Some (mks 12 [3; 4; 5]%N [13; 11; 10]%N 0 0) else if (id =? 13)%N then Some (mks 13 [4; 5; 6]%N [12; s_inf; s_inf]%N 0 0) else None
  | S O => if (id =? 20)%N then Some (mks 20 [7; 8; 9]%N [s_inf; s_inf; s_inf]%N 0 0) else None
  | _ => None
  end.
Definition ex_hull (p : nat) : list N := match p with O => [10; s_inf]%N | _ => [20]%N end.
Definition ex_hits (i : nat) (s : simplex) : bool := Nat.eqb i 1 && negb (x_id s =? 12)%N.
Definition ex_m0 (p : nat) (id : N) : N := 3.
Lemma ex_linked : linked 2 ex_get ex_hull.
Proof.
  assert (C : forall p id s, ex_get p id = Some s -> (p = 0 /\ ((id = 10%N /\ x_nbrs s = [11; s_inf; 12]%N) \/ (id = 11%N /\ x_nbrs s = [10; 12; s_inf]%N) \/ (id = 12%N /\ x_nbrs s = [13; 11; 10]%N) \/ (id = 13%N /\ x_nbrs s = [12; s_inf; s_inf]%N))
     \/ p = 1 /\ id = 20%N /\ x_nbrs s = [s_inf; s_inf; s_inf]%N) /\ x_id s = id).
  { intros [|[|p]] id s; cbn [ex_get]; [| |discriminate].
    - destruct (N.eqb_spec id 10) as [->|_]; [intros H; injection H as <-; cbn [x_nbrs x_id]; auto 15|].
      destruct (N.eqb_spec id 11) as [->|_]; [intros H; injection H as <-; cbn [x_nbrs x_id]; auto 15|].
      destruct (N.eqb_spec id 12) as [->|_]; [intros H; injection H as <-; cbn [x_nbrs x_id]; auto 15|].
      destruct (N.eqb_spec id 13) as [->|_]; [intros H; injection H as <-; cbn [x_nbrs x_id]; auto 15|discriminate].
    - destruct (N.eqb_spec id 20) as [->|_]; [intros H; injection H as <-; cbn [x_nbrs x_id]; auto 15|discriminate]. }
  split.
  - intros [|[|p]] id Hp Hin Hf; [| |lia]; cbn [ex_hull In] in Hin.
    + destruct Hin as [<-|[<-|[]]]; [eexists; split; reflexivity|contradiction].
    + destruct Hin as [<-|[]]. eexists; split; reflexivity.
  - intros p id s n _ E _ Hin Hf. destruct (C p id s E) as [H _]. clear C E.
    destruct H as [[-> [[_ H]|[[_ H]|[[_ H]|[_ H]]]]]|[-> [_ H]]]; rewrite H in Hin; cbn [In] in Hin; repeat (destruct Hin as [<-|Hin]; [first [contradiction|eexists; split; reflexivity]|]); destruct Hin.
Qed.
Example C41_ex : exists sh, linked 2 ex_get ex_hull /\ (forall p, p < 2 -> (ex_m0 p 0 + 2 < 256)%N) /\
  pexec (e_step 2 ex_get ex_hull (fun _ => 3%N) ex_hits) (e_start 2 2 ex_m0) (mkp sh []) /\
  e_simp sh = [11; 10]%N /\ forall v, (v < 10)%N -> In v (e_pts sh) <-> In v [1; 2; 3; 4]%N.
Proof.
  assert (E : exists sh, prun (e_step 2 ex_get ex_hull (fun _ => 3%N) ex_hits) (e_start 2 2 ex_m0) (repeat 0 39) = Some (mkp sh []) /\
    e_simp sh = [11; 10]%N /\ e_pts sh = map (fun i => (2 ^ 64 - i)%N) [1; 2; 3; 4]%N ++ [4; 3; 2; 3; 2; 1]%N ++ map (fun i => (2 ^ 64 - i)%N) [1; 2; 3; 4]%N).
  { eexists. split; [vm_compute; reflexivity|]. split; vm_compute; reflexivity. }
  destruct E as [sh [E [E1 E2]]]. exists sh. split; [exact ex_linked|]. split; [intros p _; reflexivity|]. split; [|split; [exact E1|]].
  - eapply prun_exec; [apply pexec_start|exact E].
  - intros v Hv. rewrite E2, !in_app_iff. cbn [map In]. split; [|intuition].
    change (2 ^ 64)%N with 18446744073709551616%N. intros H. repeat (destruct H as [H|H]; try lia; auto).
Qed.

(** The marks are counted in 8 bits.  When the mark of the triangulation is 254 the value for done is 0, so simplices never marked pass for
    done and the edge comes out empty. *)
Theorem C41_mark_wrap_refuted : exists sh, linked 2 ex_get ex_hull /\
  pexec (e_step 2 ex_get ex_hull (fun _ => 254%N) ex_hits) (e_start 2 2 (fun _ _ => 0%N)) (mkp sh []) /\
  on_edge 2 ex_get ex_hull ex_hits 0 10 (mks 10 [1; 2; 3]%N [11; s_inf; 12]%N 0 0) /\ e_simp sh = [].
Proof.
  assert (E : exists sh, prun (e_step 2 ex_get ex_hull (fun _ => 254%N) ex_hits) (e_start 2 2 (fun _ _ => 0%N)) (repeat 0 11) = Some (mkp sh []) /\ e_simp sh = []).
  { eexists. split; [vm_compute; reflexivity|]. reflexivity. }
  destruct E as [sh [E E1]]. exists sh. split; [exact ex_linked|]. split; [eapply prun_exec; [apply pexec_start|exact E]|]. split; [|exact E1].
  split; [lia|]. split; [apply reached_hull; [now left|discriminate]|]. split; [reflexivity|]. exists 1. split; [lia|]. split; [lia|]. reflexivity.
Qed.
Print Assumptions C41_mark_wrap_refuted.
