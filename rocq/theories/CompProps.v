(** Theorem C110: the homology of a simplicial complex in degree 0 counts its connected components. *)
From Coq Require Import List Arith ZArith NArith Bool Lia ZifyBool ZifyNat Sorted.
From Verif Require Import UtilModel PidModel LinModel LinSpec MatModel MatSpec MatProofs MatProofs2 SnfModel SnfProofs RankSpec RankProofs HomModel HomSpec HomProofs HomProofs4 HomProps.
From Verif Require Import SimpModel SimpSpec SimpProofs SimpProofs2 SimpProofs4 SimpProofs8 SimpProps SimpCountProps EulerProps CompSpec CompProofs.
Import ListNotations.
Open Scope nat_scope.

(** ** Generalities on quotients *)
Lemma gadd_length : forall x y, length x = length y -> length (gadd x y) = length x.
Proof. induction x as [|a x IH]; intros [|b y] H; try discriminate; [reflexivity|]. cbn in *. now rewrite IH by lia. Qed.
Lemma nth_gadd : forall x y i, length x = length y -> nth i (gadd x y) 0%Z = (nth i x 0 + nth i y 0)%Z.
Proof. induction x as [|a x IH]; intros [|b y] i H; try discriminate; [destruct i; reflexivity|]. destruct i; [reflexivity|]. cbn in *. apply IH. lia. Qed.
Definition times_list (q : Z) (x : list Z) : list Z := map (Z.mul q) x.
Lemma nth_times q x i : nth i (times_list q x) 0%Z = (q * nth i x 0)%Z.
Proof. unfold times_list. rewrite <- (Z.mul_0_r q) at 1. apply map_nth. Qed.
Lemma times_succ q x : times_list (q + 1) x = gadd (times_list q x) x.
Proof. unfold times_list. induction x as [|a x IH]; [reflexivity|]. cbn [map gadd]. rewrite IH. f_equal. lia. Qed.
Lemma geq_trans ms x y z : geq ms x y -> geq ms y z -> geq ms x z.
Proof. intros (A & B & C) (D & E & F). repeat split; auto. intros i Hi. replace (nth i x 0 - nth i z 0)%Z with ((nth i x 0 - nth i y 0) + (nth i y 0 - nth i z 0))%Z by lia. apply Z.divide_add_r; auto. Qed.
Lemma geq_gadd ms x y x' y' : geq ms x x' -> geq ms y y' -> geq ms (gadd x y) (gadd x' y').
Proof.
  intros (A & B & C) (D & E & F). repeat split; try (rewrite gadd_length; congruence). intros i Hi. rewrite !nth_gadd by congruence.
  replace (nth i x 0 + nth i y 0 - (nth i x' 0 + nth i y' 0))%Z with ((nth i x 0 - nth i x' 0) + (nth i y 0 - nth i y' 0))%Z by lia. apply Z.divide_add_r; auto.
Qed.
Lemma geq_refl ms x : gelt ms x -> geq ms x x.
Proof. intros H. repeat split; auto. intros i Hi. rewrite Z.sub_diag. apply Z.divide_0_r. Qed.

(** If the boundaries are a pure subgroup, no torsion can be reported. *)
Lemma pure_quotient (Cyc Bnd : list Z -> Prop) ms : quotient_is Cyc Bnd ms -> (forall x y, Cyc x -> Cyc y -> Cyc (gadd x y)) ->
  (forall x q, Cyc x -> q <> 0%Z -> Bnd (times_list q x) -> Bnd x) -> forall e, In e ms -> e <> 0%Z -> (e | 1)%Z.
Proof.
  intros (phi & P1 & P2 & P3 & P4) HA HP e He He0. apply In_nth with (d := 0%Z) in He. destruct He as (i & Hi & Ei).
  set (g := map (fun j => if j =? i then 1%Z else 0%Z) (seq 0 (length ms))). assert (Lg : gelt ms g) by (unfold gelt, g; now rewrite map_length, seq_length).
  assert (Ng : forall j, j < length ms -> nth j g 0%Z = if j =? i then 1%Z else 0%Z).
  { intros j Hj. apply nth_error_nth. unfold g. rewrite map_seq_nth_error by exact Hj. reflexivity. }
  destruct (P4 g Lg) as (x & Cx & Gx).
  assert (K : forall q, (0 < q)%Z -> Cyc (times_list q x) /\ geq ms (phi (times_list q x)) (times_list q g)).
  { apply (Zlt_0_ind (fun q => Cyc (times_list q x) /\ geq ms (phi (times_list q x)) (times_list q g)) ) || idtac.
    intros q Hq. replace q with (Z.of_nat (Z.to_nat (q - 1)) + 1)%Z by lia. generalize (Z.to_nat (q - 1)) as k. clear q Hq. induction k as [|k [IH1 IH2]].
    - change (Z.of_nat 0 + 1)%Z with 1%Z. assert (E1 : forall l, times_list 1 l = l) by (intros l; unfold times_list; rewrite (map_ext _ (fun z => z)); [apply map_id|intros z; lia]). rewrite !E1. auto.
    - replace (Z.of_nat (S k) + 1)%Z with ((Z.of_nat k + 1) + 1)%Z by lia. rewrite !(times_succ (Z.of_nat k + 1)). split; [now apply HA|]. eapply geq_trans; [now apply P2|]. now apply geq_gadd. }
  destruct (K (Z.abs e)) as [K1 K2]; [lia|].
  assert (Z0 : Bnd (times_list (Z.abs e) x)).
  { apply P3; [exact K1|]. eapply geq_trans; [exact K2|]. repeat split; [unfold times_list; now rewrite map_length|now rewrite map_length|]. intros j Hj. rewrite nth_times, Ng by exact Hj.
    replace (nth j (map (fun _ => 0%Z) ms) 0%Z) with 0%Z by (symmetry; destruct (nth_in_or_default j (map (fun _ : Z => 0%Z) ms) 0%Z) as [I|I]; [apply in_map_iff in I; destruct I as (? & <- & _); reflexivity|exact I]).
    destruct (Nat.eqb_spec j i) as [->|N]; [|rewrite Z.mul_0_r; apply Z.divide_0_r]. rewrite Ei, Z.mul_1_r, Z.sub_0_r. apply Z.divide_abs_r. apply Z.divide_refl. }
  apply HP in Z0; [|exact Cx|lia]. apply P3 in Z0; [|exact Cx]. destruct Gx as (_ & _ & Gx). destruct Z0 as (_ & _ & Z0). specialize (Gx i Hi). specialize (Z0 i Hi).
  replace (nth i (map (fun _ => 0%Z) ms) 0%Z) with 0%Z in Z0 by (symmetry; destruct (nth_in_or_default i (map (fun _ : Z => 0%Z) ms) 0%Z) as [I|I]; [apply in_map_iff in I; destruct I as (? & <- & _); reflexivity|exact I]).
  rewrite (Ng i Hi), Nat.eqb_refl in Gx. rewrite Ei in Gx, Z0. replace 1%Z with ((nth i (phi x) 0 - 0) - (nth i (phi x) 0 - 1))%Z by lia. now apply Z.divide_sub_r.
Qed.

(** ** Edges *)
Lemma subseq_one {A} (l : list A) x : In x l -> subseq [x] l.
Proof. induction l as [|w l IH]; intros Hy; [destruct Hy|]. destruct Hy as [->|Hy]; [apply sub_keep, subseq_nil|apply sub_skip; auto]. Qed.
Lemma subseq_pair {A} (l : list A) x y : In x l -> In y l -> x <> y -> subseq [x; y] l \/ subseq [y; x] l.
Proof.
  induction l as [|z l IH]; intros Hx Hy N; [destruct Hx|]. destruct Hx as [->|Hx], Hy as [->|Hy].
  - congruence.
  - left. now apply sub_keep, subseq_one.
  - right. now apply sub_keep, subseq_one.
  - destruct (IH Hx Hy N) as [K|K]; [left|right]; now apply sub_skip.
Qed.

Section Main.
  Context {T : Type} (eqb : T -> T -> bool).
  Hypothesis He : forall x y, eqb x y = true <-> x = y.
  Variable hist : list (list T).
  Hypothesis HV : valid_hist hist.
  Hypothesis HL : length (skeleton eqb hist) <= 64.

  Lemma skeleton_iff x : In x (skeleton eqb hist) <-> exists s, In s hist /\ In x s.
  Proof.
    destruct (attach_all_Inv eqb He hist HV HL) as (K & E & HI). split; [apply (I_lab _ _ _ _ HI)|]. intros (s & Hs & Hx). destruct (I_cov _ _ _ _ HI s Hs) as (w & _ & A). destruct (A x Hx) as (i & Hi & _). eapply nth_error_In. exact Hi.
  Qed.
  Lemma skeleton_nodup : NoDup (skeleton eqb hist).
  Proof. destruct (attach_all_Inv eqb He hist HV HL) as (K & E & HI). exact (I_nodup _ _ _ _ HI). Qed.

  Lemma eq_dec_T (x y : T) : {x = y} + {x <> y}.
  Proof. destruct (eqb x y) eqn:E; [left; now apply He|right; intros Q; apply He in Q; congruence]. Qed.

  Variables (d : nat) (c : nat) (part : T -> nat).
  Hypothesis Hd : has_dim hist d.
  Hypothesis P1 : forall x y, In x (skeleton eqb hist) -> In y (skeleton eqb hist) -> (part x = part y <-> joined hist x y).
  Hypothesis P2 : forall x, In x (skeleton eqb hist) -> part x < c.
  Hypothesis P3 : forall k, k < c -> exists x, In x (skeleton eqb hist) /\ part x = k.

  (** The boundary map as seen from degree 0. *)
  Lemma degree_zero : exists K bm n m f pi, attach_all eqb hist = Some K /\ boundary_map K = Some bm /\ complex_data bm /\ augmentation_zero (map fst bm) /\
    (exists d0, nth_error (map fst bm) 0 = Some d0 /\ nc d0 = n) /\ rank_of (map fst bm) 0 0 /\ (forall r, is_rank n m f r -> rank_of (map fst bm) 1 r) /\
    (forall x, boundaries_of (map fst bm) 0 x <-> length x = n /\ im n m f (fun i => nth i x 0%Z)) /\
    (forall j, j < m -> exists u v, u < n /\ v < n /\ pi u = pi v /\ forall i, i < n -> f i j = (unit_at u i - unit_at v i)%Z) /\
    (forall u v, u < n -> v < n -> pi u = pi v -> im n m f (fun i => (unit_at u i - unit_at v i)%Z)) /\
    (forall i, i < n -> pi i < c) /\ (forall k, k < c -> exists i, i < n /\ pi i = k) /\ 0 < n.
  Proof.
    destruct (C45_cells_partial T eqb hist d He HV HL Hd) as (K & bm & EK & _ & _ & _ & EB & LB & HC).
    destruct (C46_entries_partial T eqb hist d He HV HL Hd) as (K' & bm' & EK' & EB' & _ & (D0 & rows & E0 & EZ) & HE). rewrite EK in EK'. injection EK' as <-. rewrite EB in EB'. injection EB' as <-.
    destruct (C46_homology_input_partial T eqb hist d He HV HL Hd) as (K' & bm' & EK' & EB' & _ & CD & _). rewrite EK in EK'. injection EK' as <-. rewrite EB in EB'. injection EB' as <-.
    destruct (HC 0) as (D0' & rows' & E0' & (ND0 & C0) & _); [lia|]. rewrite E0 in E0'. injection E0' as <- <-.
    set (L := map s_labels rows) in *. set (n := length rows).
    assert (LL : length L = n) by apply map_length.
    assert (F1 : forall i, i < n -> exists x, nth_error L i = Some [x] /\ In x (skeleton eqb hist)).
    { intros i Hi. destruct (nth_error L i) as [l|] eqn:El; [|apply nth_error_None in El; lia]. pose proof (nth_error_In _ _ El) as Hin. apply C0 in Hin. destruct Hin as (S1 & S2 & _). destruct l as [|x [|y l]]; try discriminate. exists x. split; [reflexivity|]. apply (subseq_incl _ _ S1). now left. }
    assert (F2 : forall x, In x (skeleton eqb hist) -> exists i, i < n /\ nth_error L i = Some [x]).
    { intros x Hx. assert (Hc : In [x] L). { apply C0. split; [now apply subseq_one|]. split; [reflexivity|]. apply skeleton_iff in Hx. destruct Hx as (s & Hs & Hx). exists s. split; [exact Hs|]. intros y [<-|[]]. exact Hx. }
      apply In_nth_error in Hc. destruct Hc as (i & Ei). exists i. split; [|exact Ei]. rewrite <- LL. apply nth_error_Some. congruence. }
    assert (F3 : forall i j x, nth_error L i = Some [x] -> nth_error L j = Some [x] -> i = j).
    { intros i j x Ei Ej. apply (proj1 (NoDup_nth_error L) ND0); [apply nth_error_Some; congruence|congruence]. }
    set (pi := fun i => match nth_error L i with Some (x :: _) => part x | _ => 0 end).
    assert (Epi : forall i x, nth_error L i = Some [x] -> pi i = part x) by (intros i x E; unfold pi; now rewrite E).
    assert (Hpos : 0 < n). { destruct Hd as [(s & Hs & Ls) _]. destruct s as [|x s]; [discriminate|]. destruct (F2 x) as (i & Hi & _); [apply skeleton_iff; exists (x :: s); split; [exact Hs|now left]|]. lia. }
    assert (Ed0 : nth_error (map fst bm) 0 = Some D0) by (rewrite nth_error_map, E0; reflexivity).
    rewrite mzero_mk in EZ by lia. injection EZ as <-. fold n in E0, Ed0, HE.
    assert (AZ : augmentation_zero (map fst bm)). { intros d0 Ed. rewrite Ed0 in Ed. injection Ed as <-. intros i j Hi Hj. now rewrite ent_mk. }
    assert (R0 : rank_of (map fst bm) 0 0).
    { unfold rank_of. rewrite Ed0. split; [exists (fun _ _ => 0%Z); intros a _ i Hi; lia|]. intros s Hs. apply (zero_rank RZ) in Hs; [lia|discriminate|exact (AZ _ Ed0)]. }
    assert (PL : forall i, i < n -> pi i < c) by (intros i Hi; destruct (F1 i Hi) as (x & Ex & Hx); rewrite (Epi i x Ex); now apply P2).
    assert (PO : forall k, k < c -> exists i, i < n /\ pi i = k) by (intros k Hk; destruct (P3 k Hk) as (x & Hx & Ex); destruct (F2 x Hx) as (i & Hi & Ei); exists i; split; [exact Hi|]; now rewrite (Epi i x Ei)).
    destruct (Nat.eq_dec d 0) as [Z0|NZ].
    - (* only points *)
      subst d. assert (N1 : nth_error (map fst bm) 1 = None) by (apply nth_error_None; rewrite map_length; lia).
      exists K, bm, n, 0, (fun _ _ => 0%Z), pi. split; [exact EK|]. split; [exact EB|]. split; [exact CD|]. split; [exact AZ|]. split; [eexists; split; [exact Ed0|reflexivity]|]. split; [exact R0|].
      split; [intros r [(C & HC1) _]; unfold rank_of; rewrite N1; destruct r as [|r]; [reflexivity|]; exfalso; assert (Q : 1%Z = 0%Z) by (apply (HC1 (fun _ => 1%Z)) with (i := 0); [intros j Hj|]; lia); discriminate Q|].
      split; [|split; [intros j Hj; lia|split; [|split; [exact PL|split; [exact PO|exact Hpos]]]]].
      + intros x. unfold boundaries_of. cbn [Nat.add]. rewrite N1, Ed0. split.
        * intros (d0 & E & ->). injection E as <-. split; [apply repeat_length|]. exists (fun _ => 0%Z). intros i Hi. cbn [sum]. apply nth_repeat.
        * intros (Lx & y & Hy). exists (mk 1 n (fun _ _ => 0%Z)). split; [reflexivity|]. cbn [nc mk]. apply nth_ext with (d := 0%Z) (d' := 0%Z); [now rewrite repeat_length|]. intros i Hi. rewrite nth_repeat. rewrite (Hy i) by lia. reflexivity.
      + intros u v Hu Hv E. destruct (F1 u Hu) as (x & Ex & Hx), (F1 v Hv) as (y & Ey & Hy). rewrite (Epi u x Ex), (Epi v y Ey) in E. apply (P1 x y Hx Hy) in E.
        assert (Q : x = y). { clear -E Hd. induction E as [|x y z s J IH Hs Hy Hz]; [reflexivity|]. rewrite IH. destruct Hd as [_ Hb]. specialize (Hb s Hs). destruct s as [|a [|b s]]; [destruct Hy| |cbn in Hb; lia]. destruct Hy as [<-|[]], Hz as [<-|[]]. reflexivity. }
        subst y. assert (u = v) by (eapply F3; eassumption). subst v. apply (im_ext n 0 _ (fun _ => 0%Z)); [intros; lia|apply im_zero].
    - destruct (HE 0) as (D0' & rows' & D & cols & E0' & E1 & NR & NC & HM); [lia|]. rewrite E0 in E0'. injection E0' as <- <-. cbn [Nat.add] in E1. fold n in NR.
      destruct (HC 1) as (D' & cols' & E1' & (ND1 & C1) & _); [lia|]. rewrite E1 in E1'. injection E1' as <- <-. set (m := length cols) in *.
      assert (Ed1 : nth_error (map fst bm) 1 = Some D) by (rewrite nth_error_map, E1; reflexivity).
      (* the entries *)
      assert (EN : forall j a b u v, nth_error (map s_labels cols) j = Some [a; b] -> a <> b -> nth_error L u = Some [a] -> nth_error L v = Some [b] -> forall i, i < n -> ent D i j = (unit_at u i - unit_at v i)%Z).
      { intros j a b u v Ej Nab Eu Ev i Hi. destruct (F1 i Hi) as (x & Ex & Hx). unfold L in Ex. rewrite nth_error_map in Ex. destruct (nth_error rows i) as [t|] eqn:Et; [|discriminate]. injection Ex as Ex.
        rewrite nth_error_map in Ej. destruct (nth_error cols j) as [s|] eqn:Es; [|discriminate]. injection Ej as Ej. destruct (HM i j s t Et Es) as (e & Ee & FS). rewrite Ex, Ej in FS.
        assert (Hj : j < m) by (unfold m; apply nth_error_Some; congruence).
        assert (Eent : ent D i j = e). { unfold mget in Ee. destruct ((i <? nr D) && (j <? nc D)); [|discriminate]. destruct (nth_error (rws D) i) as [r|] eqn:Er; cbn [obind] in Ee; [|discriminate]. unfold ent. rewrite (nth_error_nth _ _ [] Er). now apply nth_error_nth. }
        rewrite Eent. assert (Li : nth_error L i = Some [x]) by (unfold L; now rewrite nth_error_map, Et; cbn; rewrite Ex).
        assert (Iu : (i =? u) = true <-> x = a). { rewrite Nat.eqb_eq. split; [intros ->; congruence|intros ->; eapply F3; eassumption]. }
        assert (Iv : (i =? v) = true <-> x = b). { rewrite Nat.eqb_eq. split; [intros ->; congruence|intros ->; eapply F3; eassumption]. }
        unfold unit_at. destruct FS as [(k & Hk & Er & ->)|[HN ->]].
        - cbn [length] in *. destruct k as [|[|k]]; [| |lia]; cbn in Er; injection Er as Er; cbn [Nat.sub alt Nat.even].
          + rewrite (proj2 Iv (eq_sym Er)). destruct (i =? u) eqn:Q; [pose proof (proj1 Iu eq_refl); congruence|reflexivity].
          + rewrite (proj2 Iu (eq_sym Er)). destruct (i =? v) eqn:Q; [pose proof (proj1 Iv eq_refl); congruence|reflexivity].
        - destruct (i =? u) eqn:Qu; [assert (QQ : x = a) by (now apply Iu); elim (HN 1); [cbn; lia|now rewrite QQ]|]. destruct (i =? v) eqn:Qv; [assert (QQ : x = b) by (now apply Iv); elim (HN 0); [cbn; lia|now rewrite QQ]|]. reflexivity. }
      assert (CI : forall j, j < m -> exists a b s, nth_error (map s_labels cols) j = Some [a; b] /\ a <> b /\ In s hist /\ In a s /\ In b s /\ In a (skeleton eqb hist) /\ In b (skeleton eqb hist)).
      { intros j Hj. destruct (nth_error (map s_labels cols) j) as [l|] eqn:El; [|apply nth_error_None in El; rewrite map_length in El; unfold m in Hj; lia]. pose proof (nth_error_In _ _ El) as Hin. apply C1 in Hin. destruct Hin as (S1 & S2 & s & Hs & S3). destruct l as [|a [|b [|? ?]]]; try discriminate.
        exists a, b, s. pose proof (subseq_NoDup _ _ S1 skeleton_nodup) as ND. inversion ND as [|? ? Na _]; subst. repeat split; auto; try (apply S3; cbn; auto); try (apply (subseq_incl _ _ S1); cbn; auto). intros ->. apply Na. now left. }
      assert (HI : forall x, in_image D x <-> length x = n /\ im n m (ent D) (fun i => nth i x 0%Z)).
      { intros x. unfold in_image, apply_at, im. rewrite NR, NC. split.
        - intros (Lx & y & Ly & Hy). split; [exact Lx|]. exists (fun j => nth j y 0%Z). exact Hy.
        - intros (Lx & y & Hy). split; [exact Lx|]. exists (map y (seq 0 m)). split; [now rewrite map_length, seq_length|]. intros i Hi. rewrite (Hy i Hi). apply sum_ext. intros j Hj. f_equal. symmetry. apply nth_error_nth. now rewrite map_seq_nth_error by exact Hj. }
      exists K, bm, n, m, (ent D), pi. split; [exact EK|]. split; [exact EB|]. split; [exact CD|]. split; [exact AZ|]. split; [eexists; split; [exact Ed0|reflexivity]|]. split; [exact R0|].
      split; [intros r Hr; unfold rank_of; rewrite Ed1, NR, NC; exact Hr|].
      split; [intros x; unfold boundaries_of; cbn [Nat.add]; rewrite Ed1; apply HI|]. split; [|split; [|split; [exact PL|split; [exact PO|exact Hpos]]]].
      + intros j Hj. destruct (CI j Hj) as (a & b & s & Ej & Nab & Hs & Ha & Hb & Sa & Sb). destruct (F2 a Sa) as (u & Hu & Eu), (F2 b Sb) as (v & Hv & Ev). exists u, v. split; [exact Hu|]. split; [exact Hv|]. split; [|now apply (EN j a b)].
        rewrite (Epi u a Eu), (Epi v b Ev). apply (P1 a b Sa Sb). apply (j_step _ a a b s); [constructor|exact Hs|exact Ha|exact Hb].
      + (* one step *)
        assert (ST : forall y z s w v, In s hist -> In y s -> In z s -> nth_error L w = Some [y] -> nth_error L v = Some [z] -> im n m (ent D) (fun i => (unit_at w i - unit_at v i)%Z)).
        { intros y z s w v Hs Hy Hz Ew Ev. destruct (eq_dec_T y z) as [->|Nyz]; [assert (w = v) by (eapply F3; eassumption); subst v; apply (im_ext n m _ (fun _ => 0%Z)); [intros; lia|apply im_zero]|].
          assert (Sy : In y (skeleton eqb hist)) by (apply skeleton_iff; eauto). assert (Sz : In z (skeleton eqb hist)) by (apply skeleton_iff; eauto).
          assert (CC : forall a b u u', subseq [a; b] (skeleton eqb hist) -> a <> b -> In a s -> In b s -> nth_error L u = Some [a] -> nth_error L u' = Some [b] -> im n m (ent D) (fun i => (unit_at u i - unit_at u' i)%Z)).
          { intros a b u u' SS Nab Ha Hb Eu Eu'. assert (Hin : In [a; b] (map s_labels cols)) by (apply C1; split; [exact SS|split; [reflexivity|exists s; split; [exact Hs|intros q [<-|[<-|[]]]; assumption]]]).
            apply In_nth_error in Hin. destruct Hin as (j & Ej). assert (Hj : j < m) by (unfold m; rewrite <- (map_length s_labels); apply nth_error_Some; congruence).
            exists (fun l => unit_at j l). intros i Hi. rewrite <- (EN j a b u u' Ej Nab Eu Eu' i Hi). symmetry. rewrite (sum_single RZ m j _ Hj); [unfold unit_at; rewrite Nat.eqb_refl; lia|]. intros l Hl N. unfold unit_at. replace (l =? j) with false by lia. zs. lia. }
          destruct (subseq_pair _ y z Sy Sz Nyz) as [K1|K1]; [now apply (CC y z)|]. apply (im_ext n m _ (fun i => ((-1) * (unit_at v i - unit_at w i))%Z)); [intros; lia|]. apply (im_scale n m (ent D) (-1)%Z (fun i => (unit_at v i - unit_at w i)%Z)). apply (CC z y); auto. }
        intros u v Hu Hv E. destruct (F1 u Hu) as (x & Ex & Hx), (F1 v Hv) as (y & Ey & Hy). rewrite (Epi u x Ex), (Epi v y Ey) in E. apply (P1 x y Hx Hy) in E. clear Hu Hv Hy.
        revert v Ey. induction E as [x|x y z s J IH Hs Hy Hz]; intros v Ev; [assert (u = v) by (eapply F3; eassumption); subst v; apply (im_ext n m _ (fun _ => 0%Z)); [intros; lia|apply im_zero]|].
        destruct (F2 y) as (w & Hw & Ew); [apply skeleton_iff; eauto|]. apply (im_ext n m _ (fun i => ((unit_at u i - unit_at w i) + (unit_at w i - unit_at v i))%Z)); [intros; lia|].
        apply (im_add n m (ent D) (fun i => (unit_at u i - unit_at w i)%Z) (fun i => (unit_at w i - unit_at v i)%Z)); [now apply IH|]. now apply (ST y z s).
  Qed.
End Main.

(** The first reported module has the number of connected components as free rank, and the cycles modulo the boundaries of degree 0 form the free
    group of that rank; the only divisors that can be reported are spurious: they are all -1. *)
Theorem C110_components_partial : forall T (eqb : T -> T -> bool) hist d c, (forall x y, eqb x y = true <-> x = y) ->
  valid_hist hist -> length (skeleton eqb hist) <= 64 -> has_dim hist d -> n_components eqb hist c ->
  exists K bm d0, attach_all eqb hist = Some K /\ boundary_map K = Some bm /\ nth_error (map fst bm) 0 = Some d0 /\
    quotient_is (in_kernel d0) (boundaries_of (map fst bm) 0) (repeat 0%Z c) /\
    forall cmp max_dim, total_order cmp -> exists h cyc bnd rest, integral_homology cmp bm max_dim = Some ((h, cyc, bnd) :: rest) /\
      free_rank h = c /\ Forall (fun e => fst e = (-1)%Z) (elementary_divisors h).
Proof.
  intros T eqb hist d c He HV HL Hd (part & P1 & P2 & P3).
  destruct (degree_zero eqb He hist HV HL d c part Hd P1 P2 P3) as (K & bm & n & m & f & pi & EK & EB & CD & AZ & (d0 & Ed0 & Nd0) & R0 & R1 & HB & H1 & H2 & H3 & H4 & Hn).
  pose proof (im_iff n m c f pi H1 H2 H3 H4) as HI. destruct (incidence_rank n m c f pi H1 H2 H3 H4) as [Hcn HR]. apply R1 in HR.
  assert (KER : forall x, in_kernel d0 x <-> length x = n).
  { intros x. unfold in_kernel. rewrite Nd0. split; [tauto|]. intros Lx. split; [exact Lx|]. intros i Hi. unfold apply_at. apply (sum_zero RZ). intros j Hj. rewrite (AZ d0 Ed0 i j Hi Hj). zs. lia. }
  assert (TT : forall x k, total n pi (fun i => nth i x 0%Z) k = total n pi (fun i => nth i x 0%Z) k) by reflexivity.
  assert (TA : forall x y k, length x = n -> length y = n -> total n pi (fun i => nth i (gadd x y) 0%Z) k = (total n pi (fun i => nth i x 0%Z) k + total n pi (fun i => nth i y 0%Z) k)%Z).
  { intros x y k Lx Ly. unfold total. change Z.add with (tadd (T := Z)). rewrite <- (sum_add RZ). apply sum_ext. intros i Hi. rewrite nth_gadd by congruence. zs. destruct (pi i =? k); lia. }
  assert (BT : forall x, length x = n -> (boundaries_of (map fst bm) 0 x <-> forall k, k < c -> total n pi (fun i => nth i x 0%Z) k = 0%Z)) by (intros x Lx; rewrite HB, HI; tauto).
  exists K, bm, d0. split; [exact EK|]. split; [exact EB|]. split; [exact Ed0|]. split.
  - exists (fun x => map (total n pi (fun i => nth i x 0%Z)) (seq 0 c)).
    assert (NT : forall x k, k < c -> nth k (map (total n pi (fun i => nth i x 0%Z)) (seq 0 c)) 0%Z = total n pi (fun i => nth i x 0%Z) k) by (intros x k Hk; apply nth_error_nth; rewrite map_seq_nth_error by exact Hk; reflexivity).
    assert (LT : forall x, length (map (total n pi (fun i => nth i x 0%Z)) (seq 0 c)) = c) by (intros x; now rewrite map_length, seq_length).
    assert (NZ : forall k, nth k (map (fun _ : Z => 0%Z) (repeat 0%Z c)) 0%Z = 0%Z) by (intros k; clear; revert k; induction c as [|c' IH]; intros [|k]; cbn; auto).
    split; [intros x _; unfold gelt; now rewrite LT, repeat_length|]. split; [|split].
    + intros x y Hx Hy. apply KER in Hx, Hy. repeat split; [now rewrite LT, repeat_length|rewrite gadd_length, LT, repeat_length; [reflexivity|now rewrite !LT]|]. intros k Hk. rewrite repeat_length in Hk. rewrite nth_gadd by now rewrite !LT. rewrite !NT, TA by assumption. rewrite Z.sub_diag. apply Z.divide_0_r.
    + intros x Hx. apply KER in Hx. rewrite (BT x Hx). split.
      * intros (_ & _ & H) k Hk. specialize (H k). rewrite repeat_length, nth_repeat, NZ, NT in H by exact Hk. specialize (H Hk). apply Z.divide_0_l in H. lia.
      * intros H. repeat split; [now rewrite LT, repeat_length|now rewrite map_length|]. intros k Hk. rewrite repeat_length in Hk. rewrite NT, NZ, H by exact Hk. apply Z.divide_0_r.
    + intros g Lg. unfold gelt in Lg. rewrite repeat_length in Lg. destruct (reps n c f pi H4) as (rep & HP).
      set (x := map (fun i => if i =? rep (pi i) then nth (pi i) g 0%Z else 0%Z) (seq 0 n)). assert (Lx : length x = n) by (unfold x; now rewrite map_length, seq_length).
      exists x. split; [now apply KER|]. repeat split; [now rewrite LT, repeat_length|now rewrite repeat_length|]. intros k Hk. rewrite repeat_length in Hk. rewrite NT by exact Hk. replace (total n pi (fun i => nth i x 0%Z) k) with (nth k g 0%Z); [rewrite Z.sub_diag; apply Z.divide_0_r|].
      destruct (HP k Hk) as [A B]. unfold total. rewrite (sum_single RZ n (rep k) _ A).
      * rewrite B, Nat.eqb_refl. unfold x. rewrite (nth_error_nth _ _ 0%Z (map_seq_nth_error _ _ _ A)). now rewrite B, Nat.eqb_refl.
      * intros i Hi N. destruct (Nat.eqb_spec (pi i) k) as [E|E]; [|reflexivity]. unfold x. rewrite (nth_error_nth _ _ 0%Z (map_seq_nth_error _ _ _ Hi)). rewrite E. now replace (i =? rep k) with false by lia.
  - intros cmp max_dim Ht. destruct (C43_homology_partial _ cmp bm max_dim Ht CD) as (out & Eo & Lo & HO & HE).
    assert (Hc : 0 < c) by (specialize (H3 0 Hn); lia).
    assert (CA : forall x y, in_kernel d0 x -> in_kernel d0 y -> in_kernel d0 (gadd x y)) by (intros x y Hx Hy; apply KER in Hx, Hy; apply KER; rewrite gadd_length; congruence).
    assert (PU : forall x q, in_kernel d0 x -> q <> 0%Z -> boundaries_of (map fst bm) 0 (times_list q x) -> boundaries_of (map fst bm) 0 x).
    { intros x q Hx Hq. apply KER in Hx. assert (Lq : length (times_list q x) = n) by (unfold times_list; now rewrite map_length). rewrite (BT _ Lq), (BT _ Hx). intros H k Hk. specialize (H k Hk).
      assert (E : total n pi (fun i => nth i (times_list q x) 0%Z) k = (q * total n pi (fun i => nth i x 0%Z) k)%Z).
      { unfold total. change Z.mul with (tmul (T := Z)). rewrite <- (sum_mul_l RZ). apply sum_ext. intros i Hi. rewrite nth_times. zs. destruct (pi i =? k); lia. }
      rewrite E in H. apply Z.mul_eq_0 in H. destruct H; [contradiction|assumption]. }
    destruct out as [|[[h cyc] bnd] rest].
    + exfalso. destruct (HE 0) as (d0' & Ed & (phi & Q1 & _ & Q3 & _)); [cbn [length]; destruct max_dim; destruct CD as (Hne & _); destruct bm; cbn [length]; try congruence; lia|].
      rewrite Ed0 in Ed. injection Ed as <-. set (x := map (unit_at 0) (seq 0 n)). assert (Lx : length x = n) by (unfold x; now rewrite map_length, seq_length).
      assert (Kx : in_kernel d0 x) by now apply KER. assert (Bx : boundaries_of (map fst bm) 0 x).
      { apply (Q3 x Kx). specialize (Q1 x Kx). repeat split; [exact Q1|]. intros i Hi. cbn in Hi. lia. }
      apply (BT x Lx) with (k := pi 0) in Bx; [|now apply H3]. assert (E : total n pi (fun i => nth i x 0%Z) (pi 0) = total n pi (unit_at 0) (pi 0)).
      { unfold total. apply sum_ext. intros i Hi. unfold x. now rewrite (nth_error_nth _ _ 0%Z (map_seq_nth_error _ _ _ Hi)). }
      rewrite E, (total_unit n m c f pi H1 H2 H3 H4) in Bx by exact Hn. rewrite Nat.eqb_refl in Bx. discriminate Bx.
    + exists h, cyc, bnd, rest. split; [exact Eo|]. destruct (HO 0 h cyc bnd eq_refl) as (d0' & Ed & Q & (r & r' & A & B & C) & FF & _). rewrite Ed0 in Ed. injection Ed as <-. split.
      * assert (RU : forall k r s, rank_of (map fst bm) k r -> rank_of (map fst bm) k s -> r = s) by (intros k s t; unfold rank_of; destruct (nth_error _ k); [apply is_rank_unique|congruence]).
        assert (r = 0) by (eapply RU; eassumption). assert (r' = n - c) by (eapply RU; eassumption). rewrite Nd0 in C. lia.
      * apply Forall_forall. intros [e k] Hin. rewrite Forall_forall in FF. destruct (FF _ Hin) as (E0 & E1 & E2). cbn [fst snd] in *.
        assert (Hms : In e (group_of (free_rank h) (elementary_divisors h))). { unfold group_of. apply in_or_app. right. apply in_flat_map. exists (e, k). split; [exact Hin|]. cbn [fst snd]. destruct k; [lia|]. now left. }
        pose proof (pure_quotient _ _ _ Q CA PU e Hms E0) as DV. apply Z.divide_1_r in DV. lia.
Qed.
Print Assumptions C110_components_partial.

(** Every list of simplices has a number of components. *)
Section Exists.
  Context {T : Type} (eqb : T -> T -> bool).
  Hypothesis He : forall x y, eqb x y = true <-> x = y.
  Definition links (hist : list (list T)) : list (T * T) := flat_map (fun s => match s with [] => [] | x :: t => map (fun y => (x, y)) t end) hist.
  (** Connectedness through a list of pairs, decided by a numbering. *)
  Inductive linked (ps : list (T * T)) : T -> T -> Prop :=
  | l_refl x : linked ps x x
  | l_step x y z : linked ps x y -> In (y, z) ps \/ In (z, y) ps -> linked ps x z.
  Lemma linked_trans ps x y z : linked ps x y -> linked ps y z -> linked ps x z.
  Proof. intros H K. induction K as [|a b c K IH E]; [exact H|]. eapply l_step; [apply IH, H|exact E]. Qed.
  Lemma linked_sym ps x y : linked ps x y -> linked ps y x.
  Proof. intros H. induction H as [|a b c H IH E]; [constructor|]. eapply linked_trans; [|exact IH]. eapply l_step; [constructor|]. tauto. Qed.
  Lemma linked_mono ps p x y : linked ps x y -> linked (p :: ps) x y.
  Proof. intros H. induction H as [|a b c H IH E]; [constructor|]. eapply l_step; [exact IH|]. destruct E; [left|right]; now right. Qed.
  Fixpoint index (l : list T) (x : T) : nat := match l with [] => 0 | y :: t => if eqb x y then 0 else S (index t x) end.
  Lemma index_inj l x y : In x l -> In y l -> index l x = index l y -> x = y.
  Proof.
    induction l as [|z l IH]; intros Hx Hy; [destruct Hx|]. cbn [index]. destruct (eqb x z) eqn:Ex, (eqb y z) eqn:Ey; try discriminate.
    - apply He in Ex, Ey. congruence.
    - intros [= E]. destruct Hx as [->|Hx]; [rewrite (proj2 (He x x) eq_refl) in Ex; discriminate|]. destruct Hy as [->|Hy]; [rewrite (proj2 (He y y) eq_refl) in Ey; discriminate|]. now apply IH.
  Qed.
  Lemma numbering (V : list T) ps : exists p : T -> nat, forall x y, In x V -> In y V -> incl (map fst ps ++ map snd ps) V -> (p x = p y <-> linked ps x y).
  Proof.
    induction ps as [|[a b] ps (p & IH)].
    - exists (index V). intros x y Hx Hy _. split; [intros E; rewrite (index_inj V x y Hx Hy E); constructor|]. intros H. inversion H as [|? ? ? ? [[]|[]]]; subst. reflexivity.
    - exists (fun x => if p x =? p b then p a else p x). intros x y Hx Hy HI.
      assert (HI' : incl (map fst ps ++ map snd ps) V) by (intros z Hz; apply HI; apply in_app_or in Hz; apply in_or_app; destruct Hz; [left|right]; now right).
      assert (Ha : In a V) by (apply HI, in_or_app; left; now left). assert (Hb : In b V) by (apply HI, in_or_app; right; now left).
      assert (J : forall u v, In u V -> In v V -> p u = p v -> linked ((a, b) :: ps) u v) by (intros u v Hu Hv E; apply linked_mono; now apply IH).
      assert (AB : linked ((a, b) :: ps) a b) by (eapply l_step; [constructor|left; now left]).
      split.
      + destruct (Nat.eqb_spec (p x) (p b)) as [Ex|Ex], (Nat.eqb_spec (p y) (p b)) as [Ey|Ey]; intros E.
        * apply J; auto. congruence.
        * eapply linked_trans; [apply (J x b); auto|]. eapply linked_trans; [apply linked_sym, AB|]. now apply J.
        * eapply linked_trans; [apply (J x a); auto|]. eapply linked_trans; [apply AB|]. now apply J.
        * now apply J.
      + intros H. clear Hy. assert (G : forall u v, linked ((a, b) :: ps) u v -> In u V -> In v V /\ (if p u =? p b then p a else p u) = (if p v =? p b then p a else p v)).
        { intros u v K Hu. induction K as [|u v w K IHK E]; [auto|]. destruct (IHK Hu) as [Hv Ev]. rewrite Ev. clear Ev IHK.
          assert (Hw : In w V). { destruct E as [E|E]; apply HI; apply in_or_app; [right; apply (in_map snd) in E|left; apply (in_map fst) in E]; exact E. }
          split; [exact Hw|]. destruct E as [E|E]; (destruct E as [[= <- <-]|E]; [rewrite Nat.eqb_refl; destruct (p a =? p b); reflexivity|]).
          - assert (Q : p v = p w) by (apply IH; auto; eapply l_step; [constructor|now left]). now rewrite Q.
          - assert (Q : p v = p w) by (apply IH; auto; eapply l_step; [constructor|now right]). now rewrite Q. }
        now apply G.
  Qed.
  Lemma linked_joined hist x y : linked (links hist) x y <-> joined hist x y.
  Proof.
    split.
    - intros H. induction H as [|x y z H IH E]; [constructor|]. assert (G : forall a b, In (a, b) (links hist) -> exists s, In s hist /\ In a s /\ In b s).
      { intros a b Hin. unfold links in Hin. apply in_flat_map in Hin. destruct Hin as (s & Hs & Hin). destruct s as [|u t]; [destruct Hin|]. apply in_map_iff in Hin. destruct Hin as (v & [= -> ->] & Hv). exists (a :: t). repeat split; [exact Hs|now left|now right; subst]. }
      destruct E as [E|E]; apply G in E; destruct E as (s & Hs & A & B); eapply j_step; eauto.
    - intros H. induction H as [|x y z s H IH Hs Hy Hz]; [constructor|]. eapply linked_trans; [exact IH|]. destruct s as [|u t]; [destruct Hy|].
      assert (G : forall v, In v (u :: t) -> linked (links hist) u v). { intros v [->|Hv]; [constructor|]. eapply l_step; [constructor|]. left. apply in_flat_map. exists (u :: t). split; [exact Hs|]. apply in_map_iff. exists v. auto. }
      eapply linked_trans; [apply linked_sym|]; now apply G.
  Qed.
  Lemma nodup_pos (l : list nat) x : In x l -> exists i, nth_error (nodup Nat.eq_dec l) i = Some x.
  Proof. intros H. apply In_nth_error. now apply nodup_In. Qed.
  Fixpoint pos (l : list nat) (x : nat) : nat := match l with [] => 0 | y :: t => if x =? y then 0 else S (pos t x) end.
  Lemma pos_spec l x : In x l -> pos l x < length l /\ nth (pos l x) l 0 = x.
  Proof. induction l as [|y l IH]; intros H; [destruct H|]. cbn [pos]. destruct (Nat.eqb_spec x y) as [->|N]; [cbn; split; [lia|reflexivity]|]. destruct H as [->|H]; [congruence|]. destruct (IH H) as [A B]. cbn [length nth]. split; [lia|exact B]. Qed.

  Theorem C110_exists : forall hist, valid_hist hist -> length (skeleton eqb hist) <= 64 -> exists c, n_components eqb hist c.
  Proof.
    intros hist HV HL. set (V := skeleton eqb hist). destruct (numbering V (links hist)) as (p & Hp).
    assert (HI : incl (map fst (links hist) ++ map snd (links hist)) V).
    { intros x Hx. apply (skeleton_iff eqb He hist HV HL). assert (G : exists q, In q (links hist) /\ (fst q = x \/ snd q = x)) by (apply in_app_or in Hx; destruct Hx as [Hx|Hx]; apply in_map_iff in Hx; destruct Hx as (q & E & Hq); exists q; auto).
      destruct G as ([u v] & Hq & E). apply in_flat_map in Hq. destruct Hq as (s & Hs & Hq). destruct s as [|w t]; [destruct Hq|]. apply in_map_iff in Hq. destruct Hq as (z & [= -> ->] & Hz). exists (u :: t). split; [exact Hs|]. cbn [fst snd] in E. destruct E as [<-|<-]; [now left|now right]. }
    set (N := nodup Nat.eq_dec (map p V)). exists (length N), (fun x => pos N (p x)).
    assert (IN : forall x, In x V -> In (p x) N) by (intros x Hx; apply nodup_In; now apply in_map).
    split; [|split].
    - intros x y Hx Hy. rewrite <- linked_joined, <- (Hp x y Hx Hy HI). split; [|congruence]. intros E. destruct (pos_spec N (p x) (IN x Hx)) as [_ A], (pos_spec N (p y) (IN y Hy)) as [_ B]. congruence.
    - intros x Hx. now apply pos_spec, IN.
    - intros k Hk. pose proof (nth_In N 0 Hk) as Hin. unfold N in Hin at 2. apply nodup_In in Hin. apply in_map_iff in Hin. destruct Hin as (x & E & Hx). exists x. split; [exact Hx|]. destruct (pos_spec N (p x) (IN x Hx)) as [A B].
      apply (proj1 (NoDup_nth N 0) (NoDup_nodup _ _)); [exact A|exact Hk|]. rewrite B. exact E.
  Qed.
End Exists.
Print Assumptions C110_exists.

(** [is_connected] agrees with the homology: it answers true exactly when the free rank reported in degree 0 is one. *)
Theorem C110_connected_partial : forall T (eqb : T -> T -> bool) hist d, (forall x y, eqb x y = true <-> x = y) ->
  valid_hist hist -> length (skeleton eqb hist) <= 64 -> has_dim hist d ->
  exists K b bm, attach_all eqb hist = Some K /\ cplx_is_connected K = Some b /\ boundary_map K = Some bm /\
    forall cmp max_dim, total_order cmp -> exists h cyc bnd rest, integral_homology cmp bm max_dim = Some ((h, cyc, bnd) :: rest) /\ (b = true <-> free_rank h = 1).
Proof.
  intros T eqb hist d He HV HL Hd. destruct (C110_exists eqb He hist HV HL) as (c & HN). pose proof HN as (part & P1 & P2 & P3).
  destruct (C110_components_partial T eqb hist d c He HV HL Hd HN) as (K & bm & d0 & EK & EB & _ & _ & H). destruct (C64_is_connected_partial T eqb hist He HV HL) as (K' & b & EK' & Eb & Hb). rewrite EK in EK'. injection EK' as <-.
  exists K, b, bm. split; [exact EK|]. split; [exact Eb|]. split; [exact EB|]. intros cmp max_dim Ht. destruct (H cmp max_dim Ht) as (h & cyc & bnd & rest & Eo & Hf & _). exists h, cyc, bnd, rest. split; [exact Eo|]. rewrite Hf, Hb.
  assert (HNE : exists x, In x (skeleton eqb hist)). { destruct Hd as [(s & Hs & Ls) _]. destruct s as [|x s]; [discriminate|]. exists x. apply (skeleton_iff eqb He hist HV HL). exists (x :: s). split; [exact Hs|now left]. }
  split.
  - intros J. destruct HNE as (x & Hx). pose proof (P2 x Hx). destruct (Nat.eq_dec c 1) as [|N]; [assumption|]. exfalso. destruct (P3 0) as (y & Hy & Ey); [lia|]. destruct (P3 1) as (z & Hz & Ez); [lia|].
    assert (part y = part z); [|lia]. apply (P1 y z Hy Hz). apply (skeleton_iff eqb He hist HV HL) in Hy, Hz. destruct Hy as (s & Hs & Hys), Hz as (t & Ht' & Hzt). exact (J s t y z Hs Ht' Hys Hzt).
  - intros -> s t x y Hs Ht' Hx Hy. assert (Sx : In x (skeleton eqb hist)) by (apply (skeleton_iff eqb He hist HV HL); eauto). assert (Sy : In y (skeleton eqb hist)) by (apply (skeleton_iff eqb He hist HV HL); eauto).
    apply (P1 x y Sx Sy). pose proof (P2 x Sx). pose proof (P2 y Sy). lia.
Qed.
Print Assumptions C110_connected_partial.

(** simplicial/mod.rs:13 derived order on simplices: dimension, then the labels lexicographically. *)
Fixpoint lex_cmp (a b : list nat) : comparison := match a, b with [], [] => Eq | [], _ => Lt | _, [] => Gt | x :: a, y :: b => match x ?= y with Eq => lex_cmp a b | c => c end end.
Definition simplex_cmp (a b : simplex nat) : comparison := match s_dim a ?= s_dim b with Eq => lex_cmp (s_labels a) (s_labels b) | c => c end.
Lemma lex_total : total_order lex_cmp.
Proof.
  split; [|split].
  - intros a. induction a as [|x a IH]; intros [|y b]; cbn; try (split; congruence). destruct (Nat.compare_spec x y) as [->|N|N].
    + rewrite IH. split; congruence.
    + split; [discriminate|intros [= -> ->]; lia].
    + split; [discriminate|intros [= -> ->]; lia].
  - intros a. induction a as [|x a IH]; intros [|y b]; cbn; try reflexivity. rewrite (Nat.compare_antisym x y). destruct (x ?= y); cbn; auto.
  - intros a. induction a as [|x a IH]; intros [|y b] [|z c]; cbn; try discriminate; try reflexivity.
    destruct (Nat.compare_spec x y), (Nat.compare_spec y z), (Nat.compare_spec x z); try discriminate; try lia; try reflexivity. intros. eapply IH; eassumption.
Qed.
Lemma simplex_total : total_order simplex_cmp.
Proof.
  destruct lex_total as (A & B & C). unfold simplex_cmp. split; [|split].
  - intros [n a] [m b]. cbn. destruct (Nat.compare_spec n m) as [->|N|N].
    + rewrite A. split; congruence.
    + split; [discriminate|intros [= -> ->]; lia].
    + split; [discriminate|intros [= -> ->]; lia].
  - intros [n a] [m b]. cbn. rewrite (Nat.compare_antisym n m). destruct (n ?= m); cbn; auto.
  - intros [n a] [m b] [k c]. cbn. destruct (Nat.compare_spec n m), (Nat.compare_spec m k), (Nat.compare_spec n k); try discriminate; try lia; try reflexivity. intros. eapply C; eassumption.
Qed.
Definition h0 (hist : list (list nat)) : option module_ :=
  do K <- attach_all Nat.eqb hist; do bm <- boundary_map K; do out <- integral_homology simplex_cmp bm None; option_map (fun r => fst (fst r)) (hd_error out).

(** The claim about torsion fails: for a path with four vertices (listed 3-0-1-2) the first module is reported with the divisor -1. *)
Definition path4 : list (list nat) := [[0]; [1]; [2]; [3]; [0; 1]; [0; 3]; [1; 2]].
Theorem C110_refuted : valid_hist path4 /\ length (skeleton Nat.eqb path4) <= 64 /\ has_dim path4 1 /\ n_components Nat.eqb path4 1 /\ total_order simplex_cmp /\
  exists h, h0 path4 = Some h /\ free_rank h = 1 /\ elementary_divisors h = [((-1)%Z, 1)].
Proof.
  assert (HV : valid_hist path4) by (repeat (constructor; [split; [discriminate|repeat (constructor; [cbn; intuition discriminate|]); constructor]|]); constructor).
  assert (HL : length (skeleton Nat.eqb path4) <= 64) by (vm_compute; lia).
  split; [exact HV|]. split; [exact HL|]. split; [split; [exists [0; 1]; split; [cbn; tauto|reflexivity]|intros s Hs; cbn in Hs; repeat destruct Hs as [<-|Hs]; cbn; try lia; destruct Hs]|]. split.
  - exists (fun _ => 0). split; [|split; [intros; lia|intros k Hk; exists 0; split; [cbn; tauto|lia]]]. intros x y Hx Hy. split; [intros _|reflexivity].
    assert (G : forall v, In v (skeleton Nat.eqb path4) -> joined path4 0 v /\ joined path4 v 0).
    { intros v Hv. cbn in Hv. assert (S01 : In [0; 1] path4) by (cbn; tauto). assert (S03 : In [0; 3] path4) by (cbn; tauto). assert (S12 : In [1; 2] path4) by (cbn; tauto). destruct Hv as [<-|[<-|[<-|[<-|[]]]]].
      - split; constructor.
      - split; (eapply j_step with (s := [0; 1]); [constructor|exact S01| |]; cbn; tauto).
      - split; [eapply j_step with (s := [1; 2]) (y := 1); [eapply j_step with (s := [0; 1]); [constructor|exact S01| |]|exact S12| |]; cbn; tauto|eapply j_step with (s := [0; 1]) (y := 1); [eapply j_step with (s := [1; 2]); [constructor|exact S12| |]|exact S01| |]; cbn; tauto].
      - split; (eapply j_step with (s := [0; 3]); [constructor|exact S03| |]; cbn; tauto). }
    assert (TR : forall u v w, joined path4 u v -> joined path4 v w -> joined path4 u w) by (intros u v w A B; induction B as [|a b z s J IH Hs Ha Hz]; [exact A|]; exact (j_step _ _ b _ s (IH A) Hs Ha Hz)).
    destruct (G x Hx) as [_ A], (G y Hy) as [B _]. exact (TR _ _ _ A B).
  - split; [exact simplex_total|]. eexists. split; [vm_compute; reflexivity|]. split; reflexivity.
Qed.
Print Assumptions C110_refuted.
Example C110_nontrivial : option_map (fun h => (free_rank h, elementary_divisors h)) (h0 [[0; 1; 2]; [3; 4]; [4; 5]; [6]]) = Some (3, []) /\ h0 path4 <> None.
Proof. split; [vm_compute; reflexivity|vm_compute; discriminate]. Qed.
