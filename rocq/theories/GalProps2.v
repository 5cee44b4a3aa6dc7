(** C126: the complex of critical cells for two points, and cases with numbers. *)
From Coq Require Import String List Arith ZArith Bool Lia.
From Verif Require Import PidModel GraphModel GraphSpec GraphProofs GraphProps LabGraphModel LabGraphProofs2 SubdivProps
  CubeModel CubeSpec CubeProps MorseModel MorseSpec MorseProps MorseCplxModel MorseCplxSpec MorseCplxProps MorseCplxProps2 MorseCplxProps3 GalSpec GalProps.
Import ListNotations.
Open Scope nat_scope.
Open Scope list_scope.

Lemma euler_alternating l : euler l = alternating l.
Proof. induction l as [|r l IH]; [reflexivity|]. cbn [euler]. rewrite IH. reflexivity. Qed.

(** For two points the complex of critical cells has the Euler characteristic of the space of two points on the graph. *)
Theorem C126_morse_two_points : forall es gr sg upper c, graph_from es = Some gr -> subdivided_graph_from gr 2 = Some sg -> connected (g_n_vertices (sg_data sg)) (edge (sg_data sg)) ->
  (forall u, upper = Some u -> 2 <= u) -> morse_cplx gr 2 upper = Some c -> alternating (c_ranks c) = gal es 2.
Proof.
  intros es gr sg upper c E ES HC HU EM. destruct (C56_udc es gr 2 sg E ES HC ltac:(lia)) as (k & EU & _).
  rewrite <- euler_alternating, (C105_euler_two_points es gr sg upper c k E ES HC HU EM EU), euler_alternating. apply (C126_euler es gr 2 sg k E ES HC ltac:(lia) EU).
Qed.
Print Assumptions C126_morse_two_points.

(** Three points on a segment with a loop at one end: 20 - 36 + 16 - 2 = -2. Two points on the graph with two loops: 1 - 6 + 1 = -4. *)
Definition lollipop : list (string * string) := [("v0", "v1"); ("v1", "v1")]%string.
Example C126_nontrivial : exists gr sg c, graph_from lollipop = Some gr /\ subdivided_graph_from gr 3 = Some sg /\ connected (g_n_vertices (sg_data sg)) (edge (sg_data sg)) /\ udc gr 3 = Some c /\
  c_ranks c = [20; 36; 16; 2] /\ alternating (c_ranks c) = (-2)%Z /\ gal lollipop 3 = (-2)%Z.
Proof.
  destruct (graph_from lollipop) as [gr|] eqn:E; [|vm_compute in E; discriminate E]. destruct (subdivided_graph_from gr 3) as [sg|] eqn:ES; [|vm_compute in E; injection E as <-; vm_compute in ES; discriminate ES].
  assert (HC : g_is_connected (sg_data sg) = Some true) by (clear -E ES; vm_compute in E; injection E as <-; vm_compute in ES; injection ES as <-; vm_compute; reflexivity).
  pose proof (subdivided_connected _ _ _ _ E ES HC) as C. destruct (C56_udc lollipop gr 3 sg E ES C ltac:(lia)) as (c & EU & _).
  assert (R : (do gr <- graph_from lollipop; do k <- udc gr 3; Some (c_ranks k)) = Some [20; 36; 16; 2]) by (vm_compute; reflexivity). rewrite E in R. cbn [obind] in R. rewrite EU in R. cbn [obind] in R. injection R as R.
  exists gr, sg, c. rewrite R. repeat split; try assumption. 
Qed.
Example C126_morse_nontrivial : exists gr sg c, graph_from two_loops = Some gr /\ subdivided_graph_from gr 2 = Some sg /\ connected (g_n_vertices (sg_data sg)) (edge (sg_data sg)) /\ morse_cplx gr 2 None = Some c /\
  c_ranks c = [1; 6; 1] /\ gal two_loops 2 = (-4)%Z.
Proof. destruct C105_nontrivial as (gr & sg & c & k & E1 & E2 & C & EM & _ & R & _). exists gr, sg, c. repeat split; try assumption. Qed.
