(** [boundary_map]: the matrices and bases, and the chain complex property. *)
From Coq Require Import List Arith ZArith NArith Bool Lia ZifyBool ZifyNat ZifyN Permutation Sorted.
From Verif Require Import UtilModel UtilSpec UtilProofs PidModel LinModel LinSpec LinProofs MatModel MatSpec MatProofs SnfModel SimpModel SimpSpec SimpProofs SimpProofs2 SimpProofs3 SimpProofs4 SimpProofs5.
Import ListNotations.
Open Scope nat_scope.

Lemma nth_wd l p : nth p (map wd l) 0%N = wd (nth p l (Cell [] 0 None)).
Proof. change 0%N with (wd (Cell [] 0 None)). apply map_nth. Qed.
Lemma firstn_S_nth {A} (l : list A) d : forall p, p < length l -> firstn (S p) l = firstn p l ++ [nth p l d].
Proof. induction l as [|x l IH]; intros p Hp; [cbn in Hp; lia|]. destruct p; [reflexivity|]. cbn [length] in Hp. rewrite firstn_cons, (IH p) by lia. reflexivity. Qed.

Lemma list_max_in l : l <> [] -> In (list_max l) l.
Proof.
  induction l as [|a t IH]; intros H; [contradiction|]. destruct t as [|b t']; [left; cbn; lia|]. set (t := b :: t') in *. change (list_max (a :: t)) with (Nat.max a (list_max t)).
  destruct (Nat.max_spec a (list_max t)) as [[_ ->]|[_ ->]]; [right; apply IH; discriminate|now left].
Qed.

Section B.
  Context {T : Type}.
  Variables (labels : list T) (cov src : list (list T)) (K : cplx T).
  Hypothesis HI : Inv labels cov src K.
  Let n := length labels.

  Lemma bd_contains d c b : good n c (wd c) -> length (bits (wd c)) = S (S d) -> good n b (wd b) ->
    existsb (fun f => cell_eqb f b) (map (fun x => Cell (pad (length (c_v c) - 1) (wclear (wd c) x)) (c_size c) (Some d)) (bits (wd c))) = is_face (wd b) (wd c).
  Proof.
    intros Hc HL Hb. unfold is_face. pose proof (good_lt64 _ _ _ Hc) as H64. assert (HB2 : forall y, In y (bits (wd c)) -> tb (wd c) y = true) by (intros y; apply (proj1 (in_bits _ y H64))).
    assert (G : forall y, tb (wd c) y = true -> good n (Cell (pad (length (c_v c) - 1) (wclear (wd c) y)) (c_size c) (Some d)) (wclear (wd c) y)).
    { intros y Hy. pose proof (face_good n c (wd c) y (length (c_v c) - 1) Hc ltac:(lia) Hy) as H. replace (length (bits (wd c)) - 2) with d in H by lia. exact H. }
    revert HB2. generalize (bits (wd c)). induction l as [|x l IH]; intros HB2; [reflexivity|]. cbn [map existsb]. rewrite IH by (intros; apply HB2; now right).
    f_equal. eapply eqb_good; [apply G, HB2; now left|exact Hb].
  Qed.

  Lemma combine_seq_map {A} (l : list A) d : forall k, combine (seq k (length l)) l = map (fun p => (k + p, nth p l d)) (seq 0 (length l)).
  Proof.
    induction l as [|x l IH]; intros k; [reflexivity|]. cbn [length seq combine map nth]. rewrite Nat.add_0_r. f_equal. rewrite IH. rewrite <- seq_shift, map_map. apply map_ext. intros p. f_equal. lia.
  Qed.
  Lemma foldM_map {A B S} (f : S -> B -> option S) (g : A -> B) l s : foldM f (map g l) s = foldM (fun s x => f s (g x)) l s.
  Proof. revert s. induction l as [|x l IH]; intros s; cbn; [reflexivity|]. destruct (f s (g x)); cbn; [apply IH|reflexivity]. Qed.

  Lemma col_spec d lower c j N M f : level labels K d lower -> StronglySorted (fun a b => (wd a < wd b)%N) lower ->
    wcell K (S d) (wd c) -> good n c (wd c) -> N = length lower -> j < M -> (forall p, p < N -> f p j = 0%Z) ->
    boundary_col lower j (mk N M f) c = Some (mk N M (fun p q => if q =? j then inc (wd (nth p lower (Cell [] 0 None))) (wd c) else f p q)).
  Proof.
    intros (HG & HN & HW) HS Hcell Hc EN Hj Hz. pose proof Hcell as [_ HL]. pose proof (good_lt64 _ _ _ Hc) as H64. set (c0 := Cell [] 0 None).
    unfold boundary_col. rewrite (get_face_good n c (wd c)) by (auto; lia). replace (length (bits (wd c)) - 2) with d by lia. cbn [obind].
    rewrite (combine_seq_map lower c0 0), foldM_map.
    set (cnt := fun p => length (filter (fun u => is_face u (wd c)) (firstn p (map wd lower)))).
    rewrite Forall_forall in HG.
    assert (Hgp : forall p, p < N -> good n (nth p lower c0) (wd (nth p lower c0))) by (intros p Hp; apply HG, nth_In; lia).
    assert (Hinc : forall p, p < N -> inc (wd (nth p lower c0)) (wd c) = if is_face (wd (nth p lower c0)) (wd c) then alt (cnt p) else 0%Z).
    { intros p Hp. destruct (is_face (wd (nth p lower c0)) (wd c)) eqn:E.
      - apply sign_inc; [exact H64| | |rewrite nth_error_map, (nth_error_nth' lower c0) by lia; reflexivity|exact E].
        + clear - HS. induction HS as [|a t H IH F]; cbn; constructor; auto. apply Forall_forall. intros u Hu. apply in_map_iff in Hu. destruct Hu as (b & <- & Hb). rewrite Forall_forall in F. now apply F.
        + intros x Hx. apply HW. destruct Hcell as [(m & Hm & Hs) _]. split; [exists m; split; [exact Hm|]; eapply wsub_trans; [|exact Hs]; apply wsub_wclear; [exact H64|apply (tb_true_lt (wd c) 64); assumption]|].
          rewrite wclear_len by assumption. lia.
      - apply inc_none; [exact H64|]. intros x Hx E2. assert (is_face (wd (nth p lower c0)) (wd c) = true) by (apply is_face_spec; eauto). congruence. }
    assert (Hcnt : forall p, p < N -> cnt (p + 1) = cnt p + if is_face (wd (nth p lower c0)) (wd c) then 1 else 0).
    { intros p Hp. unfold cnt. rewrite Nat.add_1_r, (firstn_S_nth _ 0%N) by (rewrite map_length; lia). rewrite filter_app, app_length. f_equal. rewrite nth_wd. fold c0. cbn [filter]. destruct (is_face _ _); reflexivity. }
    rewrite (foldM_seq0 _ (fun k => (mk N M (fun p q => if (q =? j) && (p <? k) then inc (wd (nth p lower c0)) (wd c) else f p q), alt (cnt k)))).
    - cbn [obind fst]. f_equal. apply mk_ext. intros p q Hp Hq. replace (p <? length lower) with true by lia. now rewrite andb_true_r.
    - f_equal. apply mk_ext. intros p q Hp Hq. now rewrite andb_false_r.
    - intros p Hp. cbn [fst snd]. rewrite Nat.add_0_l. assert (Hp' : p < N) by lia. rewrite (bd_contains d c _ Hc HL (Hgp p Hp')). pose proof (Hinc p Hp') as E1. pose proof (Hcnt p Hp') as E2.
      destruct (is_face (wd (nth p lower c0)) (wd c)) eqn:EF.
      + rewrite mset_mk by assumption. cbn [obind]. f_equal. f_equal; [|rewrite E2, Nat.add_1_r, alt_S; reflexivity].
        apply mk_ext. intros a b Ha Hb. destruct (Nat.eqb_spec a p) as [->|NE], (Nat.eqb_spec b j) as [->|NE']; cbn [andb].
        * replace (p <? p + 1) with true by lia. now symmetry.
        * reflexivity.
        * replace (a <? p + 1) with (a <? p) by lia. reflexivity.
        * reflexivity.
      + f_equal. f_equal; [|rewrite E2, Nat.add_0_r; reflexivity]. apply mk_ext. intros a b Ha Hb. destruct (Nat.eqb_spec b j) as [->|NE']; cbn [andb]; [|reflexivity].
        destruct (Nat.eq_dec a p) as [->|NE]; [|now replace (a <? p + 1) with (a <? p) by lia]. replace (p <? p + 1) with true by lia. replace (p <? p) with false by lia. rewrite E1. now apply Hz.
  Qed.

  Definition bent (lower upper : list cell) (i j : nat) : Z := inc (wd (nth i lower (Cell [] 0 None))) (wd (nth j upper (Cell [] 0 None))).
  Lemma matrix_spec d lower upper : level labels K d lower -> StronglySorted (fun a b => (wd a < wd b)%N) lower -> level labels K (S d) upper ->
    0 < length lower -> 0 < length upper -> boundary_matrix lower upper = Some (mk (length lower) (length upper) (bent lower upper)).
  Proof.
    intros HLo HS (UG & UN & UW) H1 H2. unfold boundary_matrix. rewrite mzero_mk by assumption. cbn [obind]. set (c0 := Cell [] 0 None).
    rewrite (combine_seq_map upper c0 0), foldM_map. rewrite Forall_forall in UG.
    rewrite (foldM_seq0 _ (fun k => mk (length lower) (length upper) (fun p q => if q <? k then bent lower upper p q else 0%Z))).
    - f_equal. apply mk_ext. intros p q Hp Hq. now replace (q <? length upper) with true by lia.
    - apply mk_ext. intros p q Hp Hq. now replace (q <? 0) with false by lia.
    - intros k Hk. cbn [fst snd]. rewrite Nat.add_0_l. assert (Hin : In (nth k upper c0) upper) by now apply nth_In.
      rewrite (col_spec d lower (nth k upper c0) k _ _ _ HLo HS); [|apply UW; now apply in_map|now apply UG|reflexivity|exact Hk|intros p Hp; now replace (k <? k) with false by lia].
      f_equal. apply mk_ext. intros p q Hp Hq. destruct (Nat.eqb_spec q k) as [->|NE]; [replace (k <? k + 1) with true by lia; unfold bent, c0; reflexivity|]. now replace (q <? k + 1) with (q <? k) by lia.
  Qed.

  Lemma level_nonempty_down d upper lower : level labels K (S d) upper -> level labels K d lower -> 0 < length upper -> 0 < length lower.
  Proof.
    intros (UG & UN & UW) (LG & LN & LW) H. destruct upper as [|c l]; [cbn in H; lia|]. rewrite Forall_forall in UG. pose proof (good_lt64 _ _ _ (UG c (or_introl eq_refl))) as H64.
    assert (Hc : wcell K (S d) (wd c)) by (apply UW; now left). destruct Hc as [(m & Hm & Hs) HL]. destruct (bits (wd c)) as [|x t] eqn:E; [discriminate|].
    assert (Hx : tb (wd c) x = true) by (apply (proj1 (in_bits _ x H64)); rewrite E; now left).
    assert (In (wclear (wd c) x) (map wd lower)) as HI2.
    { apply LW. split; [exists m; split; [exact Hm|]; eapply wsub_trans; [|exact Hs]; apply wsub_wclear; [exact H64|apply (tb_true_lt (wd c) 64); assumption]|].
      rewrite wclear_len by assumption. rewrite E. cbn [length] in HL |- *. lia. }
    destruct lower; [destruct HI2|cbn; lia].
  Qed.

  (** The matrix of degree [k] for the list [ls] of levels. *)
  Definition dmat (ls : list (list cell)) (k : nat) : mat Z :=
    match k with
    | O => mk 1 (length (nth 0 ls [])) (fun _ _ => 0%Z)
    | S m => mk (length (nth m ls [])) (length (nth (S m) ls [])) (bent (nth m ls []) (nth (S m) ls []))
    end.
  Definition simp (c : cell) : simplex T := Simplex (length (bits (wd c)) - 1) (pick labels (wd c)).
  Definition levels (d : nat) (ls : list (list cell)) : Prop :=
    length ls = S d /\ (forall k, k <= d -> level labels K k (nth k ls []) /\ 0 < length (nth k ls [])) /\
    (forall k, k < d -> StronglySorted (fun a b => (wd a < wd b)%N) (nth k ls [])).


  Lemma nth_app_last {A} (l : list A) x d : nth (length l) (l ++ [x]) d = x.
  Proof. rewrite app_nth2, Nat.sub_diag by lia. reflexivity. Qed.
  Hypothesis Hsimp : forall c, good n c (wd c) -> get_simplex K c = Some (simp c).
  Lemma simplices d l : level labels K d l -> omapM (get_simplex K) l = Some (map simp l).
  Proof. intros (HG & _ & _). rewrite Forall_forall in HG. apply omapM_some. intros c Hc. now apply Hsimp, HG. Qed.

  Lemma bm_loop_spec : forall d l acc, level labels K d l -> 0 < length l ->
    exists ls, levels d ls /\ nth d ls [] = l /\
      bm_loop K d l acc = Some (map (fun k => (dmat ls k, map simp (nth k ls []))) (seq 0 (S d)) ++ acc).
  Proof.
    induction d as [|d IH]; intros l acc HL Hl.
    - exists [l]. split; [|split; [reflexivity|]].
      + split; [reflexivity|]. split; [|intros k Hk; lia]. intros k Hk. replace k with 0 by lia. split; assumption.
      + cbn [bm_loop]. rewrite (simplices 0 l HL). cbn [obind]. rewrite mzero_mk by (assumption || lia). cbn [obind seq map app]. reflexivity.
    - cbn [bm_loop]. rewrite (simplices (S d) l HL). cbn [obind]. destruct (next_level labels cov src K HI d l HL) as (lower & E & HLo & HS). rewrite E. cbn [obind].
      pose proof (level_nonempty_down d l lower HL HLo Hl) as Hlo. rewrite (matrix_spec d lower l HLo HS HL Hlo Hl). cbn [obind].
      destruct (IH lower ((mk (length lower) (length l) (bent lower l), map simp l) :: acc) HLo Hlo) as (ls & (Elen & HA & HB) & Enth & Erun).
      exists (ls ++ [l]). assert (Hold : forall k, k <= d -> nth k (ls ++ [l]) [] = nth k ls []) by (intros k Hk; apply app_nth1; lia).
      assert (Hnew : nth (S d) (ls ++ [l]) [] = l) by (rewrite <- Elen; apply nth_app_last). split; [|split; [exact Hnew|]].
      + split; [rewrite app_length; cbn; lia|]. split.
        * intros k Hk. destruct (Nat.eq_dec k (S d)) as [->|NE]; [rewrite Hnew; split; assumption|]. rewrite Hold by lia. apply HA. lia.
        * intros k Hk. rewrite Hold by lia. destruct (Nat.eq_dec k d) as [->|NE]; [rewrite Enth; exact HS|]. apply HB. lia.
      + rewrite Erun. f_equal. rewrite (seq_S (S d) 0), map_app, <- app_assoc. f_equal.
        * apply map_ext_in. intros k Hk. apply in_seq in Hk. rewrite Hold by lia. f_equal. destruct k as [|k]; unfold dmat; rewrite ?Hold by lia; reflexivity.
        * cbn [map app plus]. unfold dmat. rewrite Hnew, (Hold d) by lia. rewrite Enth. reflexivity.
  Qed.

  Lemma top_nonempty d l : cplx_dim K = Some d -> level labels K d l -> 0 < length l.
  Proof.
    intros Hd (_ & _ & HW). unfold cplx_dim in Hd. destruct (k_max K) as [|a t] eqn:E; [discriminate|]. rewrite <- E in Hd.
    apply (f_equal (fun o => match o with Some x => x | None => 0 end)) in Hd. cbv beta iota in Hd.
    assert (HX : exists c, In c (k_max K) /\ length (bits (wd c)) - 1 = d).
    { assert (HD : map (fun c => match c_dim c with Some d => d | None => 0 end) (k_max K) = map (fun c => length (bits (wd c)) - 1) (k_max K)).
      { apply map_ext_in. intros c Hc. apply (max_good labels cov src K HI) in Hc. destruct Hc as (_ & _ & _ & _ & _ & ->). reflexivity. }
      rewrite HD in Hd. assert (HIn : In d (map (fun c => length (bits (wd c)) - 1) (k_max K))).
      { rewrite <- Hd. apply list_max_in. rewrite E. discriminate. }
      apply in_map_iff in HIn. destruct HIn as (c & Ec & Hc). exists c. split; assumption. }
    destruct HX as (c & Hc & Ec). assert (In (wd c) (map wd l)) as HIn.
    { apply HW. split; [exists (wd c); split; [rewrite words_map; now apply in_map|apply wsub_refl]|]. pose proof (good_pos _ _ _ (max_good labels cov src K HI c Hc)). lia. }
    destruct l; [destruct HIn|cbn; lia].
  Qed.

  Theorem boundary_map_spec d : cplx_dim K = Some d ->
    exists ls, levels d ls /\ boundary_map K = Some (map (fun k => (dmat ls k, map simp (nth k ls []))) (seq 0 (S d))).
  Proof.
    intros Hd. unfold boundary_map. rewrite Hd. cbn [obind]. destruct (top_level labels cov src K HI d Hd) as (l & El & HL). rewrite El. cbn [obind].
    destruct (bm_loop_spec d l [] HL (top_nonempty d l Hd HL)) as (ls & A & _ & B). exists ls. split; [exact A|]. now rewrite B, app_nil_r.
  Qed.

  (** The product of two successive matrices vanishes. *)
  Lemma dmat_dmat d ls k i j : levels d ls -> k + 2 <= d -> i < length (nth k ls []) -> j < length (nth (k + 2) ls []) ->
    prod_entry (length (nth (k + 1) ls [])) (bent (nth k ls []) (nth (k + 1) ls [])) (bent (nth (k + 1) ls []) (nth (k + 2) ls [])) i j = 0%Z.
  Proof.
    clear Hsimp. intros (_ & HA & _) Hk Hi Hj. unfold prod_entry, bent. cbn [tmul ops_Z]. set (c0 := Cell [] 0 None).
    destruct (HA (k + 2)) as ((UG & UN & UW) & _); [lia|]. destruct (HA (k + 1)) as ((MG & MN & MW) & _); [lia|].
    set (s := wd (nth j (nth (k + 2) ls []) c0)). set (r := wd (nth i (nth k ls []) c0)).
    rewrite (sum_lsum (fun c => inc r (wd c) * inc (wd c) s)%Z (nth (k + 1) ls []) c0).
    assert (Hin : In (nth j (nth (k + 2) ls []) c0) (nth (k + 2) ls [])) by now apply nth_In.
    rewrite Forall_forall in UG. pose proof (good_lt64 _ _ _ (UG _ Hin)) as H64. fold s in H64.
    assert (Hs : wcell K (k + 2) s) by (apply UW; now apply in_map).
    transitivity (lsum (fun t => inc r t * inc t s)%Z (map wd (nth (k + 1) ls []))).
    { clear. induction (nth (k + 1) ls []) as [|c l IH]; cbn [map lsum]; [reflexivity|]. now rewrite IH. }
    apply inc_inc; [exact H64|exact MN| |].
    - intros x Hx. apply MW. destruct Hs as [(m & Hm & Hsub) HL]. split; [exists m; split; [exact Hm|]; eapply wsub_trans; [|exact Hsub]; apply wsub_wclear; [exact H64|apply (tb_true_lt s 64); assumption]|].
      rewrite wclear_len by assumption. lia.
    - apply Forall_forall. intros t Ht. apply in_map_iff in Ht. destruct Ht as (c & <- & Hc). rewrite Forall_forall in MG. eapply good_lt64. now apply MG.
  Qed.
End B.
