(** Concrete parameter sets and memories used in the Examples beside the property theorems. *)
From Coq Require Import Reals ZArith Arith Lia List Bool.
From Verif Require Import CNum Sums Mem PadModel PadKernels PadSpec PadBridge.
Import ListNotations.

(** p=1, q=3, out of place, two residues per pass, zero padded rows (L < m) *)
Definition case1 : pad := mkpad 3 12 1 1 4 2 false 2 1 true.
(** p=2, q=3, overwrite mode *)
Definition case2o : pad := mkpad 4 6 1 1 2 1 true 2 1 true.
(** p=2, q=4, in place, 3 interleaved copies with stride 5 *)
Definition case2m : pad := mkpad 4 8 3 5 2 1 true 2 1 false.
(** inner loop: p=3, q=6, all residues in one pass, out of place *)
Definition case3 : pad := mkpad 6 12 1 1 2 2 false 2 1 true.
(** q=1: explicit padding *)
Definition case0 : pad := mkpad 3 5 1 1 5 1 true 2 1 true.

Lemma case1_wf : wf case1. Proof. repeat split; vm_compute; try reflexivity; lia. Qed.
Lemma case2o_wf : wf case2o. Proof. repeat split; vm_compute; try reflexivity; lia. Qed.
Lemma case2m_wf : wf case2m. Proof. repeat split; vm_compute; try reflexivity; lia. Qed.
Lemma case3_wf : wf case3. Proof. repeat split; vm_compute; try reflexivity; lia. Qed.
Lemma case0_wf : wf case0. Proof. repeat split; vm_compute; try reflexivity; lia. Qed.
Lemma case_geometry :
  (gp case1, gn case1, gq case1, gM case1) = (1, 3, 3, 12) /\
  (gp case2o, gn case2o, gq case2o, gM case2o, goverwrite case2o) = (2, 3, 3, 6, true) /\
  (gp case2m, gn case2m, gq case2m, gM case2m) = (2, 4, 4, 8) /\
  (gp case3, gn case3, gq case3, gM case3) = (3, 2, 6, 12) /\
  (gp case0, gn case0, gq case0, gM case0) = (1, 1, 1, 5).
Proof. vm_compute. repeat split; reflexivity. Qed.

(** data 1,2,3,... at address 0, everything else zero *)
Definition m0case (L : nat) : mem C := fun a => if a <? L then Val (RtoC (INR (a + 1))) else Val C0.
