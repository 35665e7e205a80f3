(** Trees that may be flattened, C80. *)
From Verif Require Import Outcome LPSetModel TreeModel.
Local Open Scope nat_scope.

(** A node with one child, a leaf, has its checker; other nodes have several children. *)
Inductive uniform {C} : tree C -> Prop :=
| un_leaf ck s : uniform (Tleaf ck s)
| un_one ck s : uniform (Tnode ck [Tleaf ck s])
| un_node ck ch : 2 <= length ch -> Forall uniform ch -> uniform (Tnode ck ch).
