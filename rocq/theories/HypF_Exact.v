(** Without rounding and with the real functions of <cmath>, the model over an arbitrary arithmetic (HypF_Model) is the model of Hyp_Model. *)
From Coq Require Import Reals List NArith ZArith.
From Verif Require Import Base Hyp_Model HypF_Model.
Lemma tree_exact : htree_outcomeF exact_math = htree_outcome. Proof. reflexivity. Qed.
Lemma generate_exact : generate_outcomeF exact_math = generate_outcome. Proof. reflexivity. Qed.
Lemma hrg_exact : hrg_outcomeF exact_math = hrg_outcome. Proof. reflexivity. Qed.
