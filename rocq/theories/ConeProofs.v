(** Complexes that are cones up to some degree: every cycle of positive degree is a boundary. *)
From Coq Require Import List Arith ZArith Bool Lia ZifyBool ZifyNat Sorted.
From Verif Require Import PidModel LinModel LinSpec MatModel MatSpec MatProofs HomModel HomSpec HomProps SimpModel SimpSpec SimpProofs4 SimpProofs5 SimpProofs7 SimpProps CompProps LinProofs3 IsoSpec IsoProofs IsoProofs2 IsoProofs3 IsoProofs4 IsoProofs5 ConeSpec.
Import ListNotations.
Open Scope nat_scope.

(** ** Signs *)
Lemma fs_apex_no {T} (a : T) t tau e : ~ In a tau -> face_sign tau (a :: t) e -> (tau = t /\ e = alt (length t)) \/ (tau <> t /\ e = 0%Z).
Proof.
  intros Na [(i & Hi & E & ->)|[N ->]].
  - destruct i as [|i]; [left|exfalso; apply Na; rewrite <- E; now left]. cbn in E. subst tau. split; [reflexivity|]. cbn [length]. now replace (S (length t) - 1 - 0) with (length t) by lia.
  - right. split; [|reflexivity]. intros ->. apply (N 0); [cbn; lia|reflexivity].
Qed.
Lemma fs_apex_yes {T} (a : T) t rho e : ~ In a t -> face_sign (a :: rho) (a :: t) e -> face_sign rho t e.
Proof.
  intros Na [(i & Hi & E & ->)|[N ->]].
  - destruct i as [|i]; [exfalso; cbn in E; apply Na; rewrite E; now left|]. left. exists i. cbn [length] in Hi |- *. split; [lia|]. split; [change (removed (S i) (a :: t)) with (a :: removed i t) in E; now injection E|]. f_equal. lia.
  - right. split; [|reflexivity]. intros i Hi E. apply (N (S i)); [cbn; lia|]. change (removed (S i) (a :: t)) with (a :: removed i t). now rewrite E.
Qed.
Lemma subseq_refl' {A} (l : list A) : subseq l l. Proof. induction l; constructor; assumption. Qed.
Lemma fs_fun {T} (eqb : T -> T -> bool) (V tau sg : list T) e e' : (forall x y, eqb x y = true <-> x = y) -> NoDup V -> subseq sg V -> subseq tau V -> face_sign tau sg e -> face_sign tau sg e' -> e = e'.
Proof.
  intros He NV S1 S2 F F'.
  assert (C : forall c, subseq c V -> corr V V (fun x => x) (fun x => x) c c) by (intros c Hc; repeat split; auto).
  rewrite (corr_sign eqb eqb He He V V (fun x => x) (fun x => x) NV NV ltac:(auto) ltac:(auto) sg sg tau tau e e (C _ S1) (C _ S2) F F).
  symmetry. exact (corr_sign eqb eqb He He V V (fun x => x) (fun x => x) NV NV ltac:(auto) ltac:(auto) sg sg tau tau e e' (C _ S1) (C _ S2) F F').
Qed.

Fixpoint leqb {T} (eqb : T -> T -> bool) (l m : list T) : bool := match l, m with [], [] => true | x :: l, y :: m => eqb x y && leqb eqb l m | _, _ => false end.
Lemma leqb_iff {T} (eqb : T -> T -> bool) : (forall x y, eqb x y = true <-> x = y) -> forall l m, leqb eqb l m = true <-> l = m.
Proof.
  intros He. induction l as [|x l IH]; intros [|y m]; cbn; try (split; [discriminate|discriminate]); [tauto|]. rewrite andb_true_iff, He, IH. split; [intros [-> ->]; reflexivity|intros [= -> ->]; tauto].
Qed.
Lemma alt_S k : alt (S k) = (- alt k)%Z.
Proof. unfold alt. rewrite Nat.even_succ, <- Nat.negb_even. destruct (Nat.even k); reflexivity. Qed.

(** Cones in the proper sense. *)
Lemma cone_cell_up {T} (eqb : T -> T -> bool) a R hist k t : skeleton eqb hist = a :: R -> (forall s, In s hist -> face_of hist (a :: s)) -> is_cell eqb hist k t -> ~ In a t -> is_cell eqb hist (k + 1) (a :: t).
Proof.
  intros HS HA (S1 & L & s & Hs & I) Na. rewrite HS in S1. split; [rewrite HS; apply sub_keep; inversion S1; subst; [assumption|exfalso; apply Na; now left]|]. split; [cbn; lia|]. destruct (HA s Hs) as (s' & Hs' & I'). exists s'. split; [exact Hs'|].
  intros y [<-|Hy]; apply I'; [now left|right; now apply I].
Qed.

Section Cone.
  Context {T : Type} (eqb : T -> T -> bool) (a : T) (hist : list (list T)) (R : list T) (d : nat).
  Hypothesis He : forall x y, eqb x y = true <-> x = y.
  Hypothesis V : valid_hist hist.
  Hypothesis HL : length (skeleton eqb hist) <= 64.
  Hypothesis Hd : has_dim hist d.
  Hypothesis HS : skeleton eqb hist = a :: R.
  (** The complex is a cone as far as simplices of dimension at most [m] are concerned. *)
  Variable m : nat.
  Hypothesis cell_up : forall k t, k < m -> is_cell eqb hist k t -> ~ In a t -> is_cell eqb hist (k + 1) (a :: t).
  Variable bm : list (mat Z * list (simplex T)).
  Hypothesis LB : length bm = S d.
  Hypothesis CD : complex_data bm.
  Hypothesis HC : forall k, k <= d -> exists D bs, nth_error bm k = Some (D, bs) /\ lists_cells eqb hist k (map s_labels bs).
  Hypothesis HE : forall k D0 rows D cols, nth_error bm k = Some (D0, rows) -> nth_error bm (k + 1) = Some (D, cols) -> nr D = length rows /\ nc D = length cols /\
      forall i j t s, nth_error rows i = Some t -> nth_error cols j = Some s -> face_sign (s_labels t) (s_labels s) (ent D i j).
  Set Default Proof Using "All".
  Lemma NDV : NoDup (a :: R). Proof. rewrite <- HS. apply skeleton_nodup; assumption. Qed.
  Lemma sub_apex c : subseq c (a :: R) -> In a c -> exists r, c = a :: r /\ subseq r R /\ ~ In a r.
  Proof.
    pose proof NDV as ND. inversion ND as [|? ? N1 N2]; subst. intros H Ha. inversion H as [|? ? ? H1|? r ? H1]; subst; [exfalso; apply N1, (subseq_incl _ _ H1), Ha|]. exists r. split; [reflexivity|]. split; [exact H1|]. intros K. apply N1, (subseq_incl _ _ H1), K.
  Qed.
  Lemma sub_no_apex c : subseq c (a :: R) -> ~ In a c -> subseq c R.
  Proof. intros H Ha. inversion H as [|? ? ? H1|? r ? H1]; subst; [exact H1|]. exfalso. apply Ha. now left. Qed.
  Lemma cell_down k r : 1 <= k -> is_cell eqb hist k (a :: r) -> is_cell eqb hist (k - 1) r.
  Proof.
    intros Hk (S1 & L & s & Hs & I). rewrite HS in S1. destruct (sub_apex _ S1 (or_introl eq_refl)) as (r' & [= <-] & S2 & Na). split; [rewrite HS; now apply sub_skip|]. cbn in L. split; [lia|]. exists s. split; [exact Hs|]. intros y Hy. apply I. now right.
  Qed.
  Section Degree.
    Variables (k : nat) (D : mat Z) (bs : list (simplex T)) (x : list Z).
    Hypothesis Hk : 1 <= k.
    Hypothesis EB : nth_error bm k = Some (D, bs).
    Hypothesis Kx : in_kernel D x.
    Notation L := (map s_labels bs).
    Lemma kle : k <= d. Proof. assert (k < length bm) by (apply nth_error_Some; congruence). lia. Qed.
    Lemma cells_k : lists_cells eqb hist k L.
    Proof. destruct (HC k kle) as (D' & bs' & E & C). rewrite EB in E. injection E as <- <-. exact C. Qed.
    Lemma ncD : nc D = length bs.
    Proof. destruct CD as (_ & _ & F). rewrite Forall_forall in F. symmetry. exact (F _ (nth_error_In _ _ EB)). Qed.
    Lemma cell_of l : l < length bs -> exists c, nth_error L l = Some c /\ is_cell eqb hist k c.
    Proof. intros Hl. destruct (nth_error L l) as [c|] eqn:E; [|apply nth_error_None in E; rewrite map_length in E; lia]. exists c. split; [reflexivity|]. apply cells_k, (nth_error_In _ _ E). Qed.
    Lemma same_index l l' c : nth_error L l = Some c -> nth_error L l' = Some c -> l = l'.
    Proof. intros A B. apply (proj1 (NoDup_nth_error L) (proj1 cells_k)); [apply nth_error_Some; congruence|congruence]. Qed.
    (** A row of [D] below a cell with apex. *)
    Lemma row_below i r : nth_error L i = Some (a :: r) -> exists i0, i0 < nr D /\
      (forall l c, nth_error L l = Some c -> face_sign r c (ent D i0 l)) /\ (forall l r', nth_error L l = Some (a :: r') -> ent D i0 l = if l =? i then alt k else 0%Z).
    Proof.
      intros Ei. assert (Ci : is_cell eqb hist k (a :: r)) by (apply cells_k, (nth_error_In _ _ Ei)). destruct (HC (k - 1) ltac:(pose proof kle; lia)) as (D0 & rows & E0 & N0 & C0).
      assert (Hr := cell_down k r Hk Ci). apply C0 in Hr. apply In_nth_error in Hr. destruct Hr as (i0 & Hr). rewrite nth_error_map in Hr. destruct (nth_error rows i0) as [t|] eqn:Et; [|discriminate]. injection Hr as Hr.
      assert (EB' : nth_error bm (k - 1 + 1) = Some (D, bs)) by (now replace (k - 1 + 1) with k by lia). destruct (HE _ _ _ _ _ E0 EB') as (F1 & F2 & F3). exists i0. split; [rewrite F1; apply nth_error_Some; congruence|].
      assert (FF : forall l c, nth_error L l = Some c -> face_sign r c (ent D i0 l)). { intros l c El. rewrite nth_error_map in El. destruct (nth_error bs l) as [s|] eqn:Es; [|discriminate]. injection El as <-. rewrite <- Hr. now apply F3. }
      split; [exact FF|]. intros l r' El. destruct Ci as (S1 & Lr & _). rewrite HS in S1. destruct (sub_apex _ S1 (or_introl eq_refl)) as (r2 & [= <-] & S2 & Na). cbn in Lr.
      destruct (fs_apex_no a r' r _ Na (FF l _ El)) as [(-> & ->)|(Nr & ->)].
      - rewrite (same_index _ _ _ El Ei), Nat.eqb_refl. f_equal. lia.
      - destruct (Nat.eqb_spec l i) as [->|]; [|reflexivity]. exfalso. rewrite Ei in El. injection El as El. now apply Nr.
    Qed.
    Lemma ker_row i0 : i0 < nr D -> sum (length bs) (fun l => ent D i0 l * nth l x 0)%Z = 0%Z.
    Proof. intros H. destruct Kx as (_ & K). specialize (K i0 H). unfold apply_at in K. now rewrite ncD in K. Qed.
    Lemma in_dec' (c : list T) : {In a c} + {~ In a c}.
    Proof. apply in_dec. intros u v. destruct (eqb u v) eqn:E; [left; now apply He|right; intros Q; apply He in Q; congruence]. Qed.
    Hypothesis Hkm : k < m.
    Lemma top_zero : k = d -> x = repeat 0%Z (nc D).
    Proof.
      intros Ed. destruct Kx as (Lx & _). apply (nth_ext _ _ 0%Z 0%Z); [now rewrite repeat_length|]. intros i Hi. rewrite Lx, ncD in Hi. rewrite nth_repeat.
      assert (AP : forall l c, nth_error L l = Some c -> exists r, c = a :: r).
      { intros l c El. assert (Cl : is_cell eqb hist k c) by (apply cells_k, (nth_error_In _ _ El)). destruct (in_dec' c) as [Ha|Ha]; [destruct Cl as (S1 & _); rewrite HS in S1; destruct (sub_apex _ S1 Ha) as (r & -> & _); eauto|].
        exfalso. destruct (cell_up k c Hkm Cl Ha) as (S1 & L1 & s & Hs & I). destruct Hd as (_ & Hm). specialize (Hm s Hs). rewrite HS in S1. pose proof (NoDup_incl_length (subseq_NoDup _ _ S1 NDV) I). lia. }
      destruct (cell_of i Hi) as (c & Ec & _). destruct (AP _ _ Ec) as (r & ->). destruct (row_below i r Ec) as (i0 & H0 & _ & F). pose proof (ker_row i0 H0) as K.
      rewrite (zsum_one _ _ i Hi) in K.
      - rewrite (F i r Ec), Nat.eqb_refl in K. pose proof (alt_sq k). nia.
      - intros l Hl Nl. destruct (cell_of l Hl) as (c & El & _). destruct (AP _ _ El) as (r' & ->). rewrite (F l r' El). replace (l =? i) with false by lia. lia.
    Qed.
    Variables (E : mat Z) (cs : list (simplex T)).
    Hypothesis EC : nth_error bm (k + 1) = Some (E, cs).
    Notation M := (map s_labels cs).
    Lemma kle1 : k + 1 <= d. Proof. assert (k + 1 < length bm) by (apply nth_error_Some; congruence). lia. Qed.
    Lemma cells_k1 : lists_cells eqb hist (k + 1) M.
    Proof. destruct (HC (k + 1) kle1) as (D' & bs' & E' & C). rewrite EC in E'. injection E' as <- <-. exact C. Qed.
    Lemma shape : nr E = length bs /\ nc E = length cs /\ forall i j c c', nth_error L i = Some c -> nth_error M j = Some c' -> face_sign c c' (ent E i j).
    Proof.
      destruct (HE _ _ _ _ _ EB EC) as (A & B & C). split; [exact A|]. split; [exact B|]. intros i j c c' Ei Ej. rewrite nth_error_map in Ei, Ej. destruct (nth_error bs i) as [t|] eqn:Et; [|discriminate]. destruct (nth_error cs j) as [s|] eqn:Es; [|discriminate]. injection Ei as <-. injection Ej as <-. now apply C.
    Qed.
    Definition hit (l j : nat) : bool := leqb eqb (nth j M []) (a :: nth l L []).
    Definition up : list Z := map (fun j => sum (length bs) (fun l => if hit l j then alt (k + 1) * nth l x 0 else 0)%Z) (seq 0 (length cs)).
    Lemma up_length : length up = length cs. Proof. unfold up. now rewrite map_length, seq_length. Qed.
    Lemma up_nth j : j < length cs -> nth j up 0%Z = sum (length bs) (fun l => if hit l j then alt (k + 1) * nth l x 0 else 0)%Z.
    Proof. intros H. unfold up. apply nth_error_nth. rewrite nth_error_map, (nth_error_nth' _ 0) by (rewrite seq_length; lia). cbn [option_map]. now rewrite seq_nth by lia. Qed.
    Definition c_ (i l : nat) : Z := sum (length cs) (fun j => if hit l j then ent E i j else 0%Z).
    Lemma up_apply i : apply_at E up i = (alt (k + 1) * sum (length bs) (fun l => c_ i l * nth l x 0))%Z.
    Proof.
      unfold apply_at. destruct shape as (_ & -> & _). rewrite (zsum_ext _ _ (fun j => sum (length bs) (fun l => if hit l j then ent E i j * (alt (k + 1) * nth l x 0) else 0)%Z)).
      - rewrite zsum_swap, <- zsum_mul. apply zsum_ext. intros l Hl. unfold c_. rewrite (zsum_ext _ _ (fun j => (alt (k + 1) * nth l x 0) * (if hit l j then ent E i j else 0))%Z) by (intros j Hj; destruct (hit l j); lia). rewrite zsum_mul. lia.
      - intros j Hj. rewrite up_nth by exact Hj. rewrite <- zsum_mul. apply zsum_ext. intros l Hl. destruct (hit l j); lia.
    Qed.
    Lemma hit_iff l j c : j < length cs -> nth_error L l = Some c -> (hit l j = true <-> nth_error M j = Some (a :: c)).
    Proof.
      intros Hj El. unfold hit. rewrite (leqb_iff eqb He), (nth_error_nth _ _ _ El). destruct (nth_error M j) as [c'|] eqn:Ej; [|apply nth_error_None in Ej; rewrite map_length in Ej; lia]. rewrite (nth_error_nth _ _ _ Ej). split; [now intros ->|now intros [= ->]].
    Qed.
    Lemma c_no i l c : nth_error L l = Some c -> In a c -> c_ i l = 0%Z.
    Proof.
      intros El Ha. unfold c_. apply zsum_zero. intros j Hj. destruct (hit l j) eqn:Eh; [|reflexivity]. exfalso. apply (hit_iff l j c Hj El) in Eh. apply nth_error_In, cells_k1 in Eh. destruct Eh as (S1 & _). rewrite HS in S1. pose proof (subseq_NoDup _ _ S1 NDV) as ND. inversion ND; subst. contradiction.
    Qed.
    Lemma c_yes i l c : nth_error L l = Some c -> ~ In a c -> exists j, j < length cs /\ nth_error M j = Some (a :: c) /\ c_ i l = ent E i j.
    Proof.
      intros El Ha. assert (Cl : is_cell eqb hist k c) by (apply cells_k, (nth_error_In _ _ El)). pose proof (cell_up k c Hkm Cl Ha) as Cu. apply cells_k1, In_nth_error in Cu. destruct Cu as (j & Ej).
      assert (Hj : j < length cs) by (rewrite <- (map_length s_labels); apply nth_error_Some; congruence). exists j. split; [exact Hj|]. split; [exact Ej|]. unfold c_. rewrite (zsum_one _ _ j Hj).
      - now rewrite (proj2 (hit_iff l j c Hj El) Ej).
      - intros j' Hj' N. destruct (hit l j') eqn:Eh; [|reflexivity]. apply (hit_iff l j' c Hj' El) in Eh. exfalso. apply N. apply (proj1 (NoDup_nth_error M) (proj1 cells_k1)); [apply nth_error_Some; congruence|congruence].
    Qed.
    Lemma up_value i : i < length bs -> apply_at E up i = nth i x 0%Z.
    Proof.
      intros Hi. rewrite up_apply. destruct shape as (_ & _ & SH). destruct (cell_of i Hi) as (tau & Ei & Ct). destruct (in_dec' tau) as [Ha|Ha].
      - assert (S1 := proj1 Ct). rewrite HS in S1. destruct (sub_apex _ S1 Ha) as (r & -> & S2 & Nr). destruct (row_below i r Ei) as (i0 & H0 & F & G). pose proof (ker_row i0 H0) as K.
        rewrite (zsum_ext _ _ (fun l => ent D i0 l * nth l x 0 + (if (l =? i)%nat then - alt k * nth l x 0 else 0))%Z).
        + rewrite zsum_add, K, (zsum_one _ _ i Hi), Nat.eqb_refl by (intros l _ N; now replace (l =? i) with false by lia). rewrite Nat.add_1_r, alt_S. pose proof (alt_sq k). rewrite Z.add_0_l, !Z.mul_opp_l, Z.mul_opp_r, Z.opp_involutive, Z.mul_assoc, H. lia.
        + intros l Hl. destruct (cell_of l Hl) as (c & El & Cc). destruct (in_dec' c) as [Hc|Hc].
          * rewrite (c_no i l c El Hc). assert (S3 := proj1 Cc). rewrite HS in S3. destruct (sub_apex _ S3 Hc) as (r' & -> & _). rewrite (G l r' El). destruct (l =? i); lia.
          * destruct (c_yes i l c El Hc) as (j & Hj & Ej & ->). assert (NE : l <> i) by (intros ->; rewrite Ei in El; injection El as <-; apply Hc; now left). replace (l =? i) with false by lia. rewrite Z.add_0_r. f_equal.
            apply (fs_fun eqb (a :: R) r c); [exact He|exact NDV|rewrite <- HS; apply Cc|now apply sub_skip|apply (fs_apex_yes a); [exact Hc|now apply SH]|now apply F].
      - rewrite (zsum_one _ _ i Hi).
        + destruct (c_yes i i tau Ei Ha) as (j & Hj & Ej & ->). destruct (fs_apex_no a tau tau _ Ha (SH _ _ _ _ Ei Ej)) as [(_ & ->)|(N & _)]; [|now destruct N]. destruct Ct as (_ & -> & _). rewrite Z.mul_assoc, Nat.add_1_r, alt_sq. lia.
        + intros l Hl N. destruct (cell_of l Hl) as (c & El & Cc). destruct (in_dec' c) as [Hc|Hc]; [rewrite (c_no i l c El Hc); lia|]. destruct (c_yes i l c El Hc) as (j & Hj & Ej & ->).
          destruct (fs_apex_no a c tau _ Ha (SH _ _ _ _ Ei Ej)) as [(-> & _)|(_ & ->)]; [|lia]. exfalso. apply N. exact (same_index _ _ _ El Ei).
    Qed.
  End Degree.
  Lemma cone_exact k D x : 1 <= k -> k < m -> nth_error (map fst bm) k = Some D -> in_kernel D x -> boundaries_of (map fst bm) k x.
  Proof.
    intros Hk Hkm ED Kx. rewrite nth_error_map in ED. destruct (nth_error bm k) as [[D' bs]|] eqn:EB; [|discriminate]. injection ED as ->. unfold boundaries_of. rewrite !nth_error_map, EB. destruct (nth_error bm (k + 1)) as [[E cs]|] eqn:EC; cbn [option_map fst].
    - destruct (shape k D bs x Hk EB Kx Hkm E cs EC) as (A & B & _). pose proof (ncD k D bs x Hk EB Kx) as NC. split; [rewrite (proj1 Kx); congruence|]. exists (up k bs x cs). split; [unfold up; rewrite map_length, seq_length; congruence|]. intros i Hi. rewrite A in Hi. symmetry. now apply (up_value k D bs x Hk EB Kx Hkm E cs EC).
    - exists D. split; [reflexivity|]. apply (top_zero k D bs x Hk EB Kx Hkm). apply nth_error_None in EC. assert (k < length bm) by (apply nth_error_Some; congruence). lia.
  Qed.
End Cone.
