(** * Products with a hierarchical matrix stored by one of its halves (C25, outside the hypotheses). *)

From Coq Require Import List Arith ZArith Bool Lia.
From Verif Require Import ClusterModel IOModel BlockModel BlockSpec Algebra BlasModel HMatModel HMatSpec ArithModel ArithSpec ArithDest P_Arith.
Import ListNotations.
Local Open Scope Z_scope.

(** 1 2 5 / 2 4 6 / 5 6 9, the lower half of the blocks is stored. *)
Definition symmetric_node (t s : ctree) (d : hdata Zc) (cs : list (rtree (hinfo Zc))) : rtree (hinfo Zc) := RNode (mkHinfo Zc t s SyS UpL d SyS UpL) cs.
Definition yS : rtree (hinfo Zc) := symmetric_node xr xr DNone
  [symmetric_node xa xa (zd 2 2 [1; 2; 2; 4]) []; xh xb xa (zd 1 2 [5; 6]) []; symmetric_node xb xb (zd 1 1 [9]) []].
(** The identity and the zero matrix. *)
Definition yI : rtree (hinfo Zc) := xh xr xr DNone
  [xh xa xa (zd 2 2 [1; 0; 0; 1]) []; xh xb xa (zd 1 2 [0; 0]) []; xh xa xb (zd 2 1 [0; 0]) []; xh xb xb (zd 1 1 [1]) []].
Definition y0 : rtree (hinfo Zc) := xh xr xr DNone
  [xh xa xa (zd 2 2 [0; 0; 0; 0]) []; xh xb xa (zd 1 2 [0; 0]) []; xh xa xb (zd 2 1 [0; 0]) []; xh xb xb (zd 1 1 [0]) []].

(** The entries of a hierarchical matrix, as its leaves and the leaves to be transposed tell (the meaning used for the products by
    vectors, C18-C20). *)
Definition entries (sy : symc) (A : rtree (hinfo Zc)) : option (list (list Z)) :=
  option_map (fun LY => map (fun i => map (fun j => value (fst LY) (snd LY) sy i j) [0; 1; 2]%nat) [0; 1; 2]%nat) (hleaves Zc A).

(** The hypothesis that the operands have no symmetry is needed: for a matrix of which only one half is stored, the products with the
    missing blocks are left out without a message. *)
Theorem C25_symmetric_operand_refuted :
  entries SyS yS = Some [[1; 2; 5]; [2; 4; 6]; [5; 6; 9]] /\
  entries SyN yI = Some [[1; 0; 0]; [0; 1; 0]; [0; 0; 1]] /\
  entries SyN y0 = Some [[0; 0; 0]; [0; 0; 0]; [0; 0; 0]] /\
  match hh_h Zc (fun L => L) (svd_id Zc) xparts 3 TrN TrN 1 yS yI 1 y0 with
  | Some C' => entries SyN C' = Some [[1; 2; 0]; [2; 4; 0]; [5; 6; 9]]
  | None => False
  end.
Proof. vm_compute. repeat split. Qed.
Print Assumptions C25_symmetric_operand_refuted.

(** ... whereas the product by a vector uses the whole matrix. *)
Example C25_symmetric_vector :
  add_hmatrix_vector_product Zc TrN 1 yS [0; 0; 1] 0 [0; 0; 0] = Some [5; 6; 9].
Proof. vm_compute. reflexivity. Qed.

(** Into a dense matrix the product of the same operands is the whole one (the second operand is converted to a dense matrix first). *)
Example C25_symmetric_into_dense :
  option_map (fun M : mat Zc => md M) (hh_dense Zc TrN TrN 1 yS yI 1 (mkMat (K := Zc) 3 3 [0; 0; 0; 0; 0; 0; 0; 0; 0])) = Some [1; 2; 5; 2; 4; 6; 5; 6; 9].
Proof. vm_compute. reflexivity. Qed.

(** ... but not when it is the second operand that is stored by halves (the conversion leaves the missing half to zero). *)
Theorem C25_symmetric_into_dense_refuted :
  option_map (fun M : mat Zc => md M) (hh_dense Zc TrN TrN 1 yI yS 1 (mkMat (K := Zc) 3 3 [0; 0; 0; 0; 0; 0; 0; 0; 0])) = Some [1; 2; 5; 2; 4; 6; 0; 0; 9].
Proof. vm_compute. reflexivity. Qed.
Print Assumptions C25_symmetric_into_dense_refuted.
