(** Two points: the non-critical cells cancel in pairs (proof of C105). *)
From Coq Require Import String List Arith ZArith Bool Lia Sorted Permutation.
From Verif Require Import PidModel GraphModel GraphSpec GraphProofs GraphProofs7 GraphProofs8 CubeModel CubeSpec CubeProofs CubeProofs2 CubeProps CubeProps2 MorseModel MorseSpec MorseProofs MorseCplxSpec.
Import ListNotations.
Open Scope nat_scope.
Open Scope list_scope.

(** ** Sums over a list *)
Definition total {A} (w : A -> Z) (l : list A) : Z := fold_right (fun x s => (w x + s)%Z) 0%Z l.
Lemma total_app {A} (w : A -> Z) a b : total w (a ++ b) = (total w a + total w b)%Z.
Proof. induction a as [|x a IH]; cbn [app total fold_right]; [reflexivity|]. fold (total w (a ++ b)) (total w a). lia. Qed.
Lemma total_perm {A} (w : A -> Z) a b : Permutation a b -> total w a = total w b.
Proof. induction 1; cbn [total fold_right] in *; unfold total in *; lia. Qed.
Lemma total_map {A B} (w : B -> Z) (f : A -> B) l : total w (map f l) = total (fun x => w (f x)) l.
Proof. induction l as [|x l IH]; [reflexivity|]. cbn in *. unfold total in IH. lia. Qed.
Lemma total_neg {A} (w v : A -> Z) l : (forall x, In x l -> v x = (- w x)%Z) -> total v l = (- total w l)%Z.
Proof. induction l as [|x l IH]; intros H; [reflexivity|]. cbn. pose proof (H x (or_introl eq_refl)) as E. unfold total in IH. rewrite IH by (intros; apply H; now right). lia. Qed.
Lemma total_filter {A} (w : A -> Z) p l : total w l = (total w (filter p l) + total w (filter (fun x => negb (p x)) l))%Z.
Proof. induction l as [|x l IH]; [reflexivity|]. cbn [filter total fold_right]. unfold total in *. destruct (p x); cbn [negb fold_right] in *; lia. Qed.
Lemma cancel {A} (w : A -> Z) (phi : A -> A) l : NoDup l -> (forall x, In x l -> In (phi x) l /\ phi (phi x) = x /\ w (phi x) = (- w x)%Z) -> total w l = 0%Z.
Proof.
  intros ND H. assert (P : Permutation l (map phi l)).
  { apply NoDup_Permutation_bis; [exact ND|now rewrite map_length|]. intros x Hx. destruct (H x Hx) as (A1 & A2 & _). rewrite <- A2. now apply in_map. }
  pose proof (total_perm w _ _ P) as E. rewrite total_map, (total_neg w (fun x => w (phi x))) in E by (intros x Hx; now apply H). lia.
Qed.

Section Two.
Variable g : rawg.
Hypothesis HA : AR g.
Definition parb (v : nat) : nat := hd 0 (filter (fun w => childb g w v) (seq 0 v)).
Lemma parb_child v : 0 < v -> v < g_n g -> child g (parb v) v.
Proof.
  intros Hv Lv. unfold parb. destruct (filter _ (seq 0 v)) as [|w t] eqn:E.
  - exfalso. destruct (has_parent g HA v Hv Lv) as (w & C). destruct (child_lt g HA w v C) as (L & _). assert (In w (filter (fun w => childb g w v) (seq 0 v))) as K by (apply filter_In; split; [apply in_seq; lia|now apply childb_iff]). now rewrite E in K.
  - cbn [hd]. assert (In w (filter (fun w => childb g w v) (seq 0 v))) as K by (rewrite E; now left). apply filter_In in K as (K1 & K2). apply in_seq in K1. apply childb_iff; [lia|exact K2].
Qed.
Lemma parb_unique w v : child g w v -> parb v = w.
Proof. intros C. destruct (child_lt g HA w v C) as (L & Lv & _). apply (child_unique g) with (j := v); [apply parb_child; lia|exact C]. Qed.

(** The larger end of a factor; the partner of a factor; a factor that can be exchanged for its partner when [b] is the other factor. *)
Definition top (f : factor) : nat := match f with FEdge _ y => y | FVertex v => v end.
Definition toggle (f : factor) : factor := match f with FEdge _ y => FVertex y | FVertex v => FEdge (parb v) v end.
Definition mobb (a b : factor) : bool :=
  match a with
  | FVertex v => (0 <? v) && negb (existsb (Nat.eqb (parb v)) (verts b))
  | FEdge x y => childb g x y && match b with FVertex v => negb ((x <? v) && childb g x v && (v <? y)) | FEdge _ _ => true end
  end.
Definition pick (a b : factor) : bool := mobb a b && (negb (mobb b a) || (top a <? top b)).
Definition srt (a b : factor) : list factor := if low a <? low b then [a; b] else [b; a].
Definition phi (l : list factor) : list factor :=
  match l with [a; b] => if pick a b then srt (toggle a) b else if pick b a then srt a (toggle b) else l | _ => l end.

Lemma mobb_v v b : closed_cell g (FVertex v) -> mobb (FVertex v) b = true <-> exists w, child g w v /\ ~ In w (verts b).
Proof.
  intros Lv. cbn in Lv. unfold g_n_vertices in Lv. cbn [mobb]. rewrite andb_true_iff, Nat.ltb_lt, negb_true_iff. split.
  - intros (Hv & K). exists (parb v). split; [now apply parb_child|]. intros H. assert (existsb (Nat.eqb (parb v)) (verts b) = true) by (apply existsb_exists; exists (parb v); split; [exact H|apply Nat.eqb_refl]). congruence.
  - intros (w & C & N). destruct (child_lt g HA w v C) as (L & _). split; [lia|]. rewrite (parb_unique w v C). destruct (existsb _ _) eqn:E; [|reflexivity]. apply existsb_exists in E as (z & Hz & Ez). apply Nat.eqb_eq in Ez. subst z. contradiction.
Qed.
Lemma mobb_e x y b : closed_cell g (FEdge x y) -> mobb (FEdge x y) b = true <-> child g x y /\ forall v, b = FVertex v -> child g x v -> y <= v.
Proof.
  intros (L & _). cbn [mobb]. rewrite andb_true_iff, (childb_iff g x y L). split; intros (C & K); (split; [exact C|]).
  - intros v -> Cv. destruct (child_lt g HA x v Cv) as (Lv & _). rewrite negb_true_iff, (proj2 (Nat.ltb_lt x v) Lv), (proj2 (childb_iff g x v Lv) Cv) in K. cbn [andb] in K. now apply Nat.ltb_ge.
  - destruct b as [|v]; [reflexivity|]. rewrite negb_true_iff. destruct (x <? v) eqn:E1; [|reflexivity]. destruct (childb g x v) eqn:E2; [|reflexivity]. cbn [andb]. apply Nat.ltb_lt in E1. apply (childb_iff g x v E1) in E2. apply Nat.ltb_ge. now apply K.
Qed.
Lemma pick_iff a b : pick a b = true <-> mobb a b = true /\ (mobb b a = true -> top a < top b).
Proof. unfold pick. rewrite andb_true_iff, orb_true_iff, negb_true_iff, Nat.ltb_lt. destruct (mobb b a); intuition discriminate. Qed.
Lemma pick_one a b : pick a b = true -> pick b a = false.
Proof. intros H. destruct (pick b a) eqn:E; [|reflexivity]. apply pick_iff in H as (A & B). apply pick_iff in E as (C & D). specialize (B C). specialize (D A). lia. Qed.
Lemma closed_top a : closed_cell g a -> top a < g_n g.
Proof. destruct a as [x y|v]; cbn; [intros (_ & E); now apply (edge_lt g x y (AR_GI g HA)) in E|auto]. Qed.
Lemma in_top a : In (top a) (verts a).
Proof. destruct a; cbn; auto. Qed.
(** The exchange is undone by itself. *)
Lemma flip a b : closed_cell g a -> closed_cell g b -> disjoint a b -> pick a b = true ->
  closed_cell g (toggle a) /\ disjoint (toggle a) b /\ pick (toggle a) b = true /\ toggle (toggle a) = a.
Proof.
  intros Ca Cb D P. apply pick_iff in P as (M & P). assert (NT : top a <> top b) by (intros E; apply (D (top a)); [apply in_top|rewrite E; apply in_top]). destruct a as [w u|u].
  - pose proof (proj1 (mobb_e w u b Ca) M) as (C & R). destruct (child_lt g HA w u C) as (L & Lu & E). cbn [toggle top] in *. assert (Cu : closed_cell g (FVertex u)) by exact Lu.
    split; [exact Cu|]. split; [intros v [<-|[]]; apply D; cbn; auto|]. split; [|now rewrite (parb_unique w u C)]. apply pick_iff. split.
    + apply (mobb_v u b Cu). exists w. split; [exact C|]. apply D. cbn. auto.
    + cbn [top]. intros Mb. destruct (mobb b (FEdge w u)) eqn:F; [now apply P|]. destruct (Nat.lt_ge_cases u (top b)) as [|G]; [assumption|exfalso]. destruct b as [x y|v]; cbn [top] in *.
      * apply (mobb_e x y _ Cb) in Mb as (Cx & _). assert (mobb (FEdge x y) (FEdge w u) = true); [|congruence]. apply (mobb_e x y _ Cb). split; [exact Cx|]. discriminate.
      * apply (mobb_v v _ Cb) in Mb as (p & Cp & _). destruct (child_lt g HA p v Cp) as (Lp & _). assert (mobb (FVertex v) (FEdge w u) = true); [|congruence]. apply (mobb_v v _ Cb). exists p. split; [exact Cp|]. intros [->|[->|[]]]; [|lia]. specialize (R v eq_refl Cp). lia.
  - pose proof (proj1 (mobb_v u b Ca) M) as (w & C & R). destruct (child_lt g HA w u C) as (L & Lu & E). cbn [toggle top] in *. rewrite (parb_unique w u C). assert (Ce : closed_cell g (FEdge w u)) by (split; assumption).
    split; [exact Ce|]. split; [intros v [<-|[<-|[]]]; [exact R|apply D; cbn; auto]|]. split; [|reflexivity]. apply pick_iff. split.
    + apply (mobb_e w u b Ce). split; [exact C|]. intros v -> Cv. destruct (Nat.le_gt_cases u v) as [|G]; [assumption|exfalso]. cbn [top] in *. assert (mobb (FVertex v) (FVertex u) = true) by (apply (mobb_v v _ Cb); exists w; split; [exact Cv|intros [->|[]]; lia]). specialize (P H). lia.
    + cbn [top]. intros Mb. destruct (mobb b (FVertex u)) eqn:F; [now apply P|]. destruct (Nat.lt_ge_cases u (top b)) as [|G]; [assumption|exfalso]. destruct b as [x y|v]; cbn [top] in *.
      * apply (mobb_e x y _ Cb) in Mb as (Cx & _). assert (mobb (FEdge x y) (FVertex u) = true); [|congruence]. apply (mobb_e x y _ Cb). split; [exact Cx|]. intros v K _. injection K as <-. lia.
      * apply (mobb_v v _ Cb) in Mb as (p & Cp & N). destruct (child_lt g HA p v Cp) as (Lp & _). assert (mobb (FVertex v) (FVertex u) = true); [|congruence]. apply (mobb_v v _ Cb). exists p. split; [exact Cp|]. intros [->|[]]. apply N. cbn. auto.
Qed.

(** A pair of factors is critical when neither can be exchanged. *)
Lemma occ_pair a b w : occupied [a; b] w <-> In w (verts a) \/ In w (verts b).
Proof. unfold occupied. split; [intros (f & [<-|[<-|[]]] & H); auto|intros [H|H]; [exists a|exists b]; cbn; auto]. Qed.
Lemma mobile_mobb a b : closed_cell g a -> closed_cell g b -> disjoint a b -> mobile g [a; b] a -> mobb a b = true.
Proof.
  intros Ca Cb D M. destruct a as [x y|v].
  - apply (mobb_e x y b Ca). destruct M as (T & N). apply (te_child g HA) in T. split; [exact T|]. intros v -> Cv. destruct (child_lt g HA x v Cv) as (L & _). destruct (Nat.le_gt_cases y v) as [|G]; [assumption|exfalso]. apply (N v); [cbn; auto|lia].
  - apply (mobb_v v b Ca). cbn in M. destruct (Nat.eq_dec v 0) as [->|Hv]; [exfalso; apply M; now left|]. destruct (has_parent g HA v ltac:(lia) Ca) as (w & C). exists w. split; [exact C|]. intros H. apply M. right. exists w. split; [now apply (te_child g HA)|]. apply occ_pair. now right.
Qed.
Lemma mobb_mobile a b : closed_cell g a -> closed_cell g b -> disjoint a b -> mobb a b = true -> mobile g [a; b] a \/ mobile g [a; b] b.
Proof.
  intros Ca Cb D M. destruct a as [x y|v].
  - apply (mobb_e x y b Ca) in M as (C & R). destruct (child_lt g HA x y C) as (Lx & _). destruct b as [x' y'|v].
    + left. split; [now apply (te_child g HA)|]. intros v [K|[K|[]]]; discriminate K.
    + destruct (le_lt_dec y v) as [G|G]; [left; split; [now apply (te_child g HA)|]; intros v' [K|[K|[]]]; [discriminate K|injection K as <-; lia]|].
      destruct (le_lt_dec v x) as [G2|G2]; [left; split; [now apply (te_child g HA)|]; intros v' [K|[K|[]]]; [discriminate K|injection K as <-; lia]|].
      right. cbn. intros [->|(p & T & O)]; [lia|]. apply (te_child g HA) in T. destruct (child_lt g HA p v T) as (Lp & _). apply occ_pair in O. cbn in O. destruct O as [[<-|[<-|[]]]|[<-|[]]]; [|lia|lia]. specialize (R v eq_refl T). lia.
  - left. apply (mobb_v v b Ca) in M as (w & C & N). cbn. destruct (child_lt g HA w v C) as (L & _). intros [->|(p & T & O)]; [lia|]. apply (te_child g HA) in T. rewrite <- (child_unique g _ _ _ C T) in O. apply occ_pair in O as [O|O]; [destruct O as [O|[]]; lia|contradiction].
Qed.
Lemma mobile_swap a b f : mobile g [a; b] f <-> mobile g [b; a] f.
Proof.
  assert (O : forall w, occupied [a; b] w <-> occupied [b; a] w) by (intros w; rewrite !occ_pair; tauto). destruct f as [x y|v]; cbn.
  - unfold respected. cbn [In]. split; intros (T & H); (split; [exact T|intros v K; apply H; tauto]).
  - unfold blocked. split; intros H K; apply H; (destruct K as [K|(w & T & K)]; [now left|right; exists w; split; [exact T|now apply O]]).
Qed.
Definition two (l : list factor) : Prop := configuration g 2 l /\ listed l.
Lemma two_pair l : two l -> exists a b, l = [a; b] /\ closed_cell g a /\ closed_cell g b /\ disjoint a b /\ low a < low b.
Proof.
  intros ((L & F & PD) & S). destruct l as [|a [|b [|]]]; cbn in L; try lia. exists a, b. split; [reflexivity|]. inversion F as [|? ? Fa F']. inversion F' as [|? ? Fb _]. subst. inversion PD as [|? ? P1 _]. inversion P1 as [|? ? P2 _]. subst. inversion S as [|? ? _ S1]. inversion S1 as [|? ? S2 _]. subst. auto.
Qed.
Lemma disjoint_sym a b : disjoint a b -> disjoint b a.
Proof. intros D v H K. now apply (D v). Qed.
Lemma low_in a : In (low a) (verts a).
Proof. destruct a; cbn; auto. Qed.
Lemma low_neq a b : disjoint a b -> low a <> low b.
Proof. intros D E. apply (D (low a)); [apply low_in|rewrite E; apply low_in]. Qed.
Lemma srt_two a b : closed_cell g a -> closed_cell g b -> disjoint a b -> two (srt a b).
Proof.
  intros Ca Cb D. pose proof (low_neq a b D) as N. unfold srt. destruct (Nat.ltb_spec (low a) (low b)) as [L|L]; (split; [split; [reflexivity|]; split; repeat constructor; auto; now apply disjoint_sym|repeat constructor; lia]).
Qed.
Lemma srt_comm a b : disjoint a b -> srt a b = srt b a.
Proof. intros D. pose proof (low_neq a b D) as N. unfold srt. destruct (Nat.ltb_spec (low a) (low b)), (Nat.ltb_spec (low b) (low a)); try reflexivity; lia. Qed.
Lemma phi_srt a b : disjoint a b -> pick a b = true -> phi (srt a b) = srt (toggle a) b \/ (phi (srt a b) = srt b (toggle a)).
Proof. intros D P. pose proof (pick_one a b P) as Q. unfold srt at 1 3. destruct (low a <? low b); cbn [phi]; rewrite ?Q, ?P; auto. Qed.
Lemma dimension_srt a b : dimension (srt a b) = dimension [a] + dimension [b].
Proof. unfold srt, dimension. destruct (low a <? low b), a, b; reflexivity. Qed.
Definition weight (l : list factor) : Z := if Nat.even (dimension l) then 1%Z else (-1)%Z.
Lemma weight_toggle a b : weight (srt (toggle a) b) = (- weight (srt a b))%Z.
Proof. unfold weight. rewrite !dimension_srt. destruct a, b; reflexivity. Qed.
Lemma phi_flip l : two l -> ~ critical g 2 l -> two (phi l) /\ ~ critical g 2 (phi l) /\ phi (phi l) = l /\ weight (phi l) = (- weight l)%Z.
Proof.
  intros T NC. destruct (two_pair l T) as (a & b & -> & Ca & Cb & D & L). pose proof (disjoint_sym _ _ D) as D'.
  assert (K : exists c d, srt c d = [a; b] /\ closed_cell g c /\ closed_cell g d /\ disjoint c d /\ pick c d = true).
  { assert (S1 : srt a b = [a; b]) by (unfold srt; now rewrite (proj2 (Nat.ltb_lt _ _) L)). assert (S2 : srt b a = [a; b]) by (now rewrite srt_comm).
    destruct (pick a b) eqn:P1; [exists a, b; auto 6|]. destruct (pick b a) eqn:P2; [exists b, a; auto 6|exfalso]. apply NC. split; [apply T|].
    assert (NT : top a <> top b) by (intros E; apply (D (top a)); [apply in_top|rewrite E; apply in_top]).
    assert (M : mobb a b = false /\ mobb b a = false).
    { unfold pick in P1, P2. destruct (mobb a b), (mobb b a); cbn in *; try discriminate; auto. apply Nat.ltb_ge in P1, P2. lia. }
    intros f [<-|[<-|[]]] Mf; [apply mobile_mobb in Mf; try assumption; destruct M; congruence|]. apply mobile_swap in Mf. apply mobile_mobb in Mf; try assumption; destruct M; congruence. }
  destruct K as (c & d & E & Cc & Cd & Dcd & P). rewrite <- E. destruct (flip c d Cc Cd Dcd P) as (Ct & Dt & Pt & TT).
  assert (PH : phi (srt c d) = srt (toggle c) d) by (destruct (phi_srt c d Dcd P) as [Q|Q]; rewrite Q; [reflexivity|symmetry; now apply srt_comm]).
  assert (PH2 : phi (srt (toggle c) d) = srt c d) by (destruct (phi_srt (toggle c) d Dt Pt) as [Q|Q]; rewrite Q, TT; [reflexivity|symmetry; now apply srt_comm]).
  rewrite PH. split; [now apply srt_two|]. split; [|split; [exact PH2|apply weight_toggle]].
  intros (_ & KC). apply pick_iff in Pt as (Mt & _). apply mobb_mobile in Mt; try assumption.
  assert (SM : forall f, mobile g [toggle c; d] f -> mobile g (srt (toggle c) d) f) by (intros f; unfold srt; destruct (low (toggle c) <? low d); [auto|apply mobile_swap]).
  assert (SI : In (toggle c) (srt (toggle c) d) /\ In d (srt (toggle c) d)) by (unfold srt; destruct (low (toggle c) <? low d); cbn; auto).
  destruct Mt as [Mt|Mt]; apply SM in Mt; revert Mt; apply KC; apply SI.
Qed.
Definition critb (l : list factor) : bool := match property g l with Some Critical => true | _ => false end.
Lemma critb_iff l : two l -> critb l = true <-> critical g 2 l.
Proof.
  intros T. assert (F : Forall (closed_cell g) l) by apply T. pose proof (property_critical g HA l F) as P. unfold critb, critical. split.
  - intros K. split; [apply T|]. apply P. destruct (property g l) as [[| |]|]; try discriminate K. reflexivity.
  - intros (_ & K). apply P in K. now rewrite K.
Qed.
(** The weights of all pairs add up to those of the critical ones. *)
Lemma weights_two L M : NoDup L -> (forall l, In l L <-> two l) -> NoDup M -> (forall l, In l M <-> critical g 2 l /\ listed l) -> total weight L = total weight M.
Proof.
  intros NL HL NM HM. rewrite (total_filter weight critb L). rewrite (cancel weight phi (filter (fun x => negb (critb x)) L)).
  - rewrite Z.add_0_r. apply total_perm. apply NoDup_Permutation; [now apply NoDup_filter|exact NM|]. intros l. rewrite filter_In, HL, HM. split.
    + intros (T & C). split; [now apply critb_iff|apply T].
    + intros (C & S). assert (T : two l) by (split; [apply C|exact S]). split; [exact T|]. now apply critb_iff.
  - now apply NoDup_filter.
  - intros l Hl. apply filter_In in Hl as (Hl & C). apply HL in Hl. apply negb_true_iff in C. assert (NC : ~ critical g 2 l) by (intros K; apply (critb_iff l Hl) in K; congruence).
    destruct (phi_flip l Hl NC) as (A & B & D & E). split; [|split; assumption]. apply filter_In. split; [now apply HL|]. apply negb_true_iff. destruct (critb (phi l)) eqn:K; [|reflexivity]. apply (critb_iff _ A) in K. contradiction.
Qed.
End Two.

(** The alternating sum of the numbers of cells. *)
Lemma weights_dims L : (forall l, In l L -> dimension l <= 2) ->
  total weight L = (Z.of_nat (length (filter (fun l => (dimension l =? 0)%nat) L)) - (Z.of_nat (length (filter (fun l => (dimension l =? 1)%nat) L)) - Z.of_nat (length (filter (fun l => (dimension l =? 2)%nat) L))))%Z.
Proof.
  induction L as [|l L IH]; intros H; [reflexivity|]. pose proof (H l (or_introl eq_refl)) as D. cbn [total fold_right filter]. fold (total weight L). rewrite IH by (intros; apply H; now right). unfold weight.
  destruct (dimension l) as [|[|[|]]]; [| | |lia]; cbn [Nat.even Nat.eqb length]; lia.
Qed.
