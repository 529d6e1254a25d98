(* Operations on two IrrepsArrays, one irrep instance at a time: dot, cross; alignment of multiplicities. *)
From Coq Require Import Reals Lra.
From Verif Require Import PyBase PermModel PermProofs IrrepsModel IrrepsProofs IrrepsProofs2 ArrayModel ArrayProofs ArrayOps RechunkProofs SliceProofs SliceProofs2 ArithProofs LeadModel LeadProofs BlockProofs.
Open Scope nat_scope.

Definition map2 {A B C} (f : A -> B -> C) (l : list A) (l' : list B) : list C := map (fun '(a, b) => f a b) (combine l l').
Lemma map2_app {A B C} (f : A -> B -> C) a a' b b' : length a = length b -> map2 f (a ++ a') (b ++ b') = map2 f a b ++ map2 f a' b'.
Proof. intros L. unfold map2. rewrite combine_app' by exact L. apply map_app. Qed.
Lemma map2_cons {A B C} (f : A -> B -> C) a l b l' : map2 f (a :: l) (b :: l') = f a b :: map2 f l l'.
Proof. reflexivity. Qed.
Lemma srows_cons p l i : srows (p :: l) i = rows_of (fst p) (snd p) i ++ srows l i.
Proof. reflexivity. Qed.
Lemma map2_length {A B C} (f : A -> B -> C) a b : length (map2 f a b) = Nat.min (length a) (length b).
Proof. unfold map2. rewrite map_length. apply combine_length. Qed.

Definition op2 (f : list R -> list R -> list R) (d : nat) (s : shape) (c e : option chunk) : option chunk :=
  match c, e with
  | Some c, Some e => Some (Chunk s (c_mul c) d (fun i => map2 f (c_val c (bidx (c_lead c) i)) (c_val e (bidx (c_lead e) i))))
  | _, _ => None
  end.
Lemma map2_zero_l (f : list R -> list R -> list R) n d1 d V : (forall v, In v V -> f (zero_row d1) v = zero_row d) -> length V = n -> map2 f (zeros_rows n d1) V = zeros_rows n d.
Proof.
  intros H <-. unfold map2, zeros_rows. induction V as [|v V IH]; [reflexivity|]. cbn [length repeat combine map]. f_equal; [apply H; left; reflexivity|].
  apply IH. intros v' Hv. apply H. right. exact Hv.
Qed.
Lemma map2_zero_r (f : list R -> list R -> list R) n d2 d U : (forall u, In u U -> f u (zero_row d2) = zero_row d) -> length U = n -> map2 f U (zeros_rows n d2) = zeros_rows n d.
Proof.
  intros H <-. unfold map2, zeros_rows. induction U as [|v V IH]; [reflexivity|]. cbn [length repeat combine map]. f_equal; [apply H; left; reflexivity|].
  apply IH. intros v' Hv. apply H. right. exact Hv.
Qed.
Section Op2.
Variables (f : list R -> list R -> list R) (ir ir1 ir2 : irrep) (m : nat) (sa sb s : shape).
Hypothesis Hs : broadcast_shapes sa sb = Ok s.
Hypothesis f_len : forall u v, length u = ir_dim ir1 -> length v = ir_dim ir2 -> length (f u v) = ir_dim ir.
Hypothesis f_zl : forall v, length v = ir_dim ir2 -> f (zero_row (ir_dim ir1)) v = zero_row (ir_dim ir).
Hypothesis f_zr : forall u, length u = ir_dim ir1 -> f u (zero_row (ir_dim ir2)) = zero_row (ir_dim ir).
Lemma op2_ok c e : wf_opt sa (m, ir1) c -> wf_opt sb (m, ir2) e -> 
  wf_opt s (m, ir) (op2 f (ir_dim ir) s c e) /\
  forall i, valid s i -> rows_of (m, ir) (op2 f (ir_dim ir) s c e) i = map2 f (rows_of (m, ir1) c (bidx sa i)) (rows_of (m, ir2) e (bidx sb i)).
Proof.
  intros W1 W2.
  assert (B : forall i, valid s i -> valid sa (bidx sa i) /\ valid sb (bidx sb i)) by (intros i Hi; apply (broadcast_valid _ _ _ _ Hs Hi)).
  assert (Q : forall i, valid s i -> (length (rows_of (m, ir1) c (bidx sa i)) = m /\ Forall (fun r => length r = ir_dim ir1) (rows_of (m, ir1) c (bidx sa i))) /\
     (length (rows_of (m, ir2) e (bidx sb i)) = m /\ Forall (fun r => length r = ir_dim ir2) (rows_of (m, ir2) e (bidx sb i)))).
  { intros i Hi. destruct (B i Hi) as [B1 B2]. split; [apply (rows_of_wf _ _ _ _ W1 B1)|apply (rows_of_wf _ _ _ _ W2 B2)]. }
  destruct c as [c|], e as [e|]; cbn [op2 wf_opt].
  - pose proof W1 as (L1 & M1 & D1 & V1). pose proof W2 as (L2 & M2 & D2 & V2). cbn [fst snd] in *. rewrite L1, L2. split.
    + unfold wf_chunk. cbn [c_lead c_mul c_dim c_val fst snd]. split; [reflexivity|]. split; [exact M1|]. split; [reflexivity|].
      intros i Hi. destruct (Q i Hi) as [[Q1 Q2] [Q3 Q4]]. cbn [rows_of] in *. rewrite map2_length, Q1, Q3, Nat.min_id. split; [reflexivity|].
      unfold map2. apply Forall_map, Forall_forall. intros [u v] Hin. rewrite Forall_forall in Q2, Q4.
      apply f_len; [apply Q2; apply in_combine_l in Hin; exact Hin|apply Q4; apply in_combine_r in Hin; exact Hin].
    + intros i Hi. reflexivity.
  - split; [exact I|]. intros i Hi. destruct (Q i Hi) as [[Q1 Q2] [Q3 Q4]]. cbn [rows_of fst snd] in *. symmetry. apply map2_zero_r; [|exact Q1].
    intros u Hu. apply f_zr. rewrite Forall_forall in Q2. auto.
  - split; [exact I|]. intros i Hi. destruct (Q i Hi) as [[Q1 Q2] [Q3 Q4]]. cbn [rows_of fst snd] in *. symmetry. apply map2_zero_l; [|exact Q3].
    intros u Hu. apply f_zl. rewrite Forall_forall in Q4. auto.
  - split; [exact I|]. intros i Hi. cbn [rows_of fst snd]. symmetry. apply map2_zero_r; [|apply zeros_rows_length]. intros u Hu. apply f_zr. 
    apply repeat_spec in Hu. subst u. apply repeat_length.
Qed.
End Op2.

(* lists of aligned entries *)
Section Op2List.
Variables (f : list R -> list R -> list R) (g : irrep -> irrep -> irrep) (P1 P2 : irrep -> Prop) (sa sb s : shape).
Hypothesis Hs : broadcast_shapes sa sb = Ok s.
Hypothesis f_len : forall ir1 ir2 u v, P1 ir1 -> P2 ir2 -> length u = ir_dim ir1 -> length v = ir_dim ir2 -> length (f u v) = ir_dim (g ir1 ir2).
Hypothesis f_zl : forall ir1 ir2 v, P1 ir1 -> P2 ir2 -> length v = ir_dim ir2 -> f (zero_row (ir_dim ir1)) v = zero_row (ir_dim (g ir1 ir2)).
Hypothesis f_zr : forall ir1 ir2 u, P1 ir1 -> P2 ir2 -> length u = ir_dim ir1 -> f u (zero_row (ir_dim ir2)) = zero_row (ir_dim (g ir1 ir2)).
Definition out2 (p q : mulirrep * option chunk) : mulirrep * option chunk :=
  let m := (fst (fst p), g (snd (fst p)) (snd (fst q))) in (m, op2 f (ir_dim (snd m)) s (snd p) (snd q)).
Definition aligned2 (p q : mulirrep * option chunk) : Prop :=
  fst (fst p) = fst (fst q) /\ P1 (snd (fst p)) /\ P2 (snd (fst q)) /\ wf_pair sa p /\ wf_pair sb q.
Lemma out2_ok la lb : Forall2 aligned2 la lb ->
  Forall (wf_pair s) (map2 out2 la lb) /\
  forall i, valid s i -> srows (map2 out2 la lb) i = map2 f (srows la (bidx sa i)) (srows lb (bidx sb i)).
Proof.
  induction 1 as [|[[m1 ir1] c] [[m2 ir2] e] la lb (Em & Q1 & Q2 & W1 & W2) H IH]; [split; [constructor|reflexivity]|].
  cbn [fst snd] in *. subst m2. unfold wf_pair in W1, W2. cbn [fst snd] in *.
  destruct (op2_ok f (g ir1 ir2) ir1 ir2 m1 sa sb s Hs (fun u v => f_len ir1 ir2 u v Q1 Q2) (fun v => f_zl ir1 ir2 v Q1 Q2) (fun u => f_zr ir1 ir2 u Q1 Q2) c e W1 W2) as [W E].
  split.
  - constructor; [exact W|apply IH].
  - intros i Hi. rewrite map2_cons, !srows_cons. rewrite (proj2 IH i Hi). destruct (broadcast_valid _ _ _ _ Hs Hi) as [Va Vb].
    cbn [fst snd]. rewrite map2_app; [|rewrite (proj1 (rows_of_wf _ _ _ _ W1 Va)), (proj1 (rows_of_wf _ _ _ _ W2 Vb)); reflexivity].
    f_equal. apply E, Hi.
Qed.
Lemma op2_yields a b r : coherent a -> coherent b -> lead a = sa -> lead b = sb -> map fst (irr a) = map fst (irr b) ->
  Forall (fun m => P1 (snd m)) (irr a) -> Forall (fun m => P2 (snd m)) (irr b) ->
  r = from_chunks (map2 (fun p q => (fst p, g (snd p) (snd q))) (irr a) (irr b)) (map snd (map2 out2 (pairs a) (pairs b))) s true ->
  yields r (map2 (fun p q => (fst p, g (snd p) (snd q))) (irr a) (irr b)) s
    (fun i => concat (map2 f (instances (irr a) (arr a (bidx sa i))) (instances (irr b) (arr b (bidx sb i))))).
Proof.
  intros Ha Hb La Lb Em Pa Pb ->.
  assert (Hal : Forall2 aligned2 (pairs a) (pairs b)).
  { pose proof (pairs_wf a Ha) as Wa. pose proof (pairs_wf b Hb) as Wb. rewrite La in Wa. rewrite Lb in Wb.
    rewrite <- (pairs_fst a Ha) in Em, Pa. rewrite <- (pairs_fst b Hb) in Em, Pb. revert Em Pa Pb Wa Wb. generalize (pairs a) (pairs b). clear.
    induction l as [|p l IH]; intros [|q l'] Em Pa Pb Wa Wb; try discriminate; [constructor|]. cbn [map] in *. injection Em as E1 E2.
    inversion Pa; inversion Pb; inversion Wa; inversion Wb; subst. constructor; [repeat split; assumption|]. apply IH; assumption. }
  destruct (out2_ok _ _ Hal) as [W E].
  assert (Ef : map fst (map2 out2 (pairs a) (pairs b)) = map2 (fun p q => (fst p, g (snd p) (snd q))) (irr a) (irr b)).
  { rewrite <- (pairs_fst a Ha), <- (pairs_fst b Hb). generalize (pairs a) (pairs b). clear. unfold map2.
    induction l as [|p l IH]; intros [|q l']; try reflexivity. cbn [combine map]. rewrite IH. reflexivity. }
  eapply (yields_from_pairs (map2 out2 (pairs a) (pairs b))); [rewrite Ef; reflexivity|exact W|symmetry; exact Ef|].
  intros i Hi. rewrite den_srows, E by exact Hi. destruct (broadcast_valid _ _ _ _ Hs Hi) as [Va Vb].
  rewrite <- La, <- Lb in *. rewrite (instances_srows a Ha _ Va), (instances_srows b Hb _ Vb). reflexivity.
Qed.
End Op2List.

(* ---------- dot ---------- *)
Lemma dotR_app u u' v v' : length u = length v -> dotR (u ++ u') (v ++ v') = (dotR u v + dotR u' v')%R.
Proof.
  intros L. unfold dotR. rewrite zipR_app by exact L. generalize (zipR Rmult u v). induction l as [|a l IH]; cbn; [lra|]. rewrite IH. lra.
Qed.
Lemma dotR_concat : forall U V, Forall2 (fun u v => length u = length v) U V ->
  dotR (concat U) (concat V) = fold_right Rplus 0%R (map2 dotR U V).
Proof. induction 1 as [|u v U V L H IH]; [reflexivity|]. cbn [concat]. rewrite dotR_app by exact L. rewrite IH. reflexivity. Qed.
Lemma widths_Forall2 d1 n (U V : list (list R)) : length U = n -> length V = n -> Forall (fun r => length r = d1) U -> Forall (fun r => length r = d1) V -> Forall2 (fun u v => length u = length v) U V.
Proof.
  intros <- L FU. revert V L. induction FU as [|u U Hu FU IH]; intros [|v V] L FV; try discriminate; [constructor|]. inversion FV; subst. constructor; [congruence|]. apply IH; [injection L; auto|assumption].
Qed.
Lemma dotR_comm : forall u v, dotR u v = dotR v u.
Proof. unfold dotR. induction u as [|a u IH]; intros [|b v]; cbn; try reflexivity. change (map (fun '(x, y) => (x * y)%R) (combine u v)) with (zipR Rmult u v). change (map (fun '(x, y) => (x * y)%R) (combine v u)) with (zipR Rmult v u). rewrite IH. lra. Qed.

Definition both (p : option chunk * option chunk) : bool := match p with (Some _, Some _) => true | _ => false end.
Lemma fold_left_Rplus_acc {A} (h : A -> R) l acc : fold_left (fun acc a => (acc + h a)%R) l acc = (acc + fold_right Rplus 0 (map h l))%R.
Proof. revert acc. induction l as [|a l IH]; intros acc; cbn; [lra|]. rewrite IH. lra. Qed.
Definition dot_pair (i : idx) (p : option chunk * option chunk) : R :=
  match p with
  | (Some c, Some d) => fold_right Rplus 0%R (map2 dotR (c_val c (bidx (c_lead c) i)) (c_val d (bidx (c_lead d) i)))
  | _ => 0%R
  end.
Lemma dot_total_acc cs i : forall r, fold_left (fun acc '(c, d) => match c, d with
    | Some c, Some d => (acc + fold_right Rplus 0 (map (fun '(u, v) => dotR u v)
        (combine (c_val c (bidx (c_lead c) i)) (c_val d (bidx (c_lead d) i)))))%R
    | _, _ => acc end) cs r = (r + fold_right Rplus 0 (map (dot_pair i) cs))%R.
Proof.
  induction cs as [|[[c|] [d|]] cs IH]; intros r; cbn [fold_left map fold_right]; rewrite ?IH; try lra; try (cbn [dot_pair]; lra).
  change (dot_pair i (Some c, Some d)) with (fold_right Rplus 0%R (map (fun '(u, v) => dotR u v) (combine (c_val c (bidx (c_lead c) i)) (c_val d (bidx (c_lead d) i))))). lra.
Qed.
Lemma dot_total_sum cs i : dot_total cs i = fold_right Rplus 0%R (map (dot_pair i) cs).
Proof. unfold dot_total. rewrite dot_total_acc. lra. Qed.
Lemma dot_total_ok sa sb s : broadcast_shapes sa sb = Ok s -> forall x fa fb ca cb a b, flags_ok sa x fa a -> chunks_ok sa x fa ca a -> flags_ok sb x fb b -> chunks_ok sb x fb cb b ->
  forall i, valid s i -> (forall j, valid sa j -> length (a j) = dim x) -> (forall j, valid sb j -> length (b j) = dim x) ->
  fold_right Rplus 0%R (map (dot_pair i) (combine ca cb)) = dotR (a (bidx sa i)) (b (bidx sb i)).
Proof.
  intros Hs. induction x as [|m x IH]; intros [|f fa] [|g fb] [|c ca] [|d cb] a b Fa Ca Fb Cb i Hi La Lb; cbn [flags_ok chunks_ok] in *; try contradiction.
  - destruct (broadcast_valid _ _ _ _ Hs Hi) as [Va Vb]. specialize (La _ Va). specialize (Lb _ Vb). destruct (a (bidx sa i)); [reflexivity|discriminate].
  - destruct Fa as [F1 Fa], Ca as [C1 Ca], Fb as [F2 Fb], Cb as [C2 Cb]. destruct (broadcast_valid _ _ _ _ Hs Hi) as [Va Vb].
    cbn [combine map fold_right].
    assert (La' : forall j, valid sa j -> length (skipn (mi_dim m) (a j)) = dim x) by (intros j Hj; rewrite skipn_length, La, dim_cons by exact Hj; lia).
    assert (Lb' : forall j, valid sb j -> length (skipn (mi_dim m) (b j)) = dim x) by (intros j Hj; rewrite skipn_length, Lb, dim_cons by exact Hj; lia).
    rewrite (IH fa fb ca cb (fun j => skipn (mi_dim m) (a j)) (fun j => skipn (mi_dim m) (b j)) Fa Ca Fb Cb i Hi La' Lb').
    rewrite <- (firstn_skipn (mi_dim m) (a (bidx sa i))) at 2. rewrite <- (firstn_skipn (mi_dim m) (b (bidx sb i))) at 2.
    assert (A1 : length (firstn (mi_dim m) (a (bidx sa i))) = mi_dim m) by (rewrite firstn_length, La, dim_cons by exact Va; lia).
    assert (A2 : length (firstn (mi_dim m) (b (bidx sb i))) = mi_dim m) by (rewrite firstn_length, Lb, dim_cons by exact Vb; lia).
    rewrite dotR_app by congruence. f_equal.
    destruct c as [c|], d as [d|]; cbn [chunk_ok dot_pair] in *.
    + destruct C1 as (_ & (L1 & M1 & D1 & W1) & E1), C2 as (_ & (L2 & M2 & D2 & W2) & E2). rewrite L1, L2, <- E1, <- E2 by assumption.
      destruct (W1 _ Va) as [U1 U2], (W2 _ Vb) as [U3 U4]. symmetry. apply dotR_concat. apply (widths_Forall2 (ir_dim (snd m)) (fst m)); assumption.
    + rewrite (F2 C2 _ Vb). symmetry. apply dotR_zero_r.
    + rewrite (F1 C1 _ Va). symmetry. apply dotR_zero_l.
    + rewrite (F1 C1 _ Va). symmetry. apply dotR_zero_l.
Qed.
Lemma dot_yields a b s : coherent a -> coherent b -> simplify (irr a) = simplify (irr b) -> broadcast_shapes (lead a) (lead b) = Ok s ->
  yields (dot a b false) [(1, even_scalar)] s (fun i => [dotR (arr a (bidx (lead a) i)) (arr b (bidx (lead b) i))]).
Proof.
  intros Ha Hb Es Hs. unfold dot.
  destruct (ia_simplify_yields a Ha) as (a' & -> & A1 & A2 & Ha' & Aa). cbn [bind].
  destruct (ia_simplify_yields b Hb) as (b' & -> & B1 & B2 & Hb' & Bb). cbn [bind].
  rewrite A1, B1, Es, irreps_eqb_refl. cbn [negb]. rewrite A2, B2, Hs. cbn [bind].
  assert (T : forall i, valid s i -> dot_total (combine (chunks a') (chunks b')) i = dotR (arr a (bidx (lead a) i)) (arr b (bidx (lead b) i))).
  { intros i Hi. destruct (broadcast_valid _ _ _ _ Hs Hi) as [Va Vb]. rewrite dot_total_sum, <- (Aa _ Va), <- (Bb _ Vb).
    pose proof (chunks_chunks_ok a' Ha') as Ka. pose proof (chunks_chunks_ok b' Hb') as Kb.
    destruct Ha' as (La & Fa & _), Hb' as (Lb & Fb & _). rewrite A1, A2, Es in *. rewrite B1, B2 in *.
    apply (dot_total_ok (lead a) (lead b) s Hs (simplify (irr b)) (zero_flags a') (zero_flags b')); assumption. }
  destruct (existsb _ _) eqn:Ex.
  - apply (yields_ext _ _ _ (fun i => [dot_total (combine (chunks a') (chunks b')) i])); [intros i Hi; rewrite T by exact Hi; reflexivity|].
    apply (new_yields [(1, even_scalar)] s). reflexivity.
  - apply (yields_ext _ _ _ (fun _ => zero_row (dim [(1, even_scalar)]))); [|apply zeros_yields].
    intros i Hi. change (zero_row (dim [(1, even_scalar)])) with [0%R]. rewrite <- T by exact Hi. f_equal. symmetry. rewrite dot_total_sum.
    clear T. induction (combine (chunks a') (chunks b')) as [|[[c|] [d|]] l IH]; [reflexivity| | | |]; cbn [existsb orb] in Ex; try discriminate; cbn [map fold_right dot_pair]; rewrite (IH Ex); lra.
Qed.
Lemma dot_rejects a b pi : coherent a -> coherent b -> simplify (irr a) <> simplify (irr b) -> dot a b pi = Err ValueError.
Proof.
  intros Ha Hb Es. unfold dot.
  destruct (ia_simplify_yields a Ha) as (a' & -> & A1 & _). cbn [bind]. destruct (ia_simplify_yields b Hb) as (b' & -> & B1 & _). cbn [bind].
  rewrite A1, B1. destruct (irreps_eqb (simplify (irr a)) (simplify (irr b))) eqn:E; [apply irreps_eqb_eq in E; contradiction|reflexivity].
Qed.
Lemma mapM_map {A B} (f : A -> res B) (h : A -> B) l : (forall a, In a l -> f a = Ok (h a)) -> mapM f l = Ok (map h l).
Proof. induction l as [|a l IH]; intros H; [reflexivity|]. cbn [mapM map]. rewrite H by (left; reflexivity). rewrite IH; [reflexivity|]. intros b Hb. apply H. right. exact Hb. Qed.
Lemma zero_row_1 : zero_row 1 = [0%R].
Proof. reflexivity. Qed.
Lemma map_snd_map2_out2 f g s : forall la lb : list (mulirrep * option chunk), length la = length lb -> 
  map snd (map2 (out2 f g s) la lb) = map (fun '(m, q, (c, e)) => op2 f (ir_dim (g (snd m) (snd q))) s c e) (combine (combine (map fst la) (map fst lb)) (combine (map snd la) (map snd lb))).
Proof. unfold map2. induction la as [|[m c] la IH]; intros [|[q e] lb] L; try discriminate; [reflexivity|]. cbn [map combine fst snd out2]. rewrite IH by (injection L; auto). reflexivity. Qed.

Lemma dot_per_irrep_yields a b : coherent a -> coherent b -> simplify (irr a) = simplify (irr b) -> lead a = lead b ->
  yields (dot a b true) (map (fun '(mul, _) => (mul, even_scalar)) (simplify (irr a))) (lead a)
    (fun i => map2 dotR (instances (simplify (irr a)) (arr a i)) (instances (simplify (irr a)) (arr b i))).
Proof.
  intros Ha Hb Es El. unfold dot.
  destruct (ia_simplify_yields a Ha) as (a' & -> & A1 & A2 & Ha' & Aa). cbn [bind].
  destruct (ia_simplify_yields b Hb) as (b' & -> & B1 & B2 & Hb' & Bb). cbn [bind].
  rewrite A1, B1, Es, irreps_eqb_refl. cbn [negb]. rewrite A2.
  assert (Hs : broadcast_shapes (lead a) (lead a) = Ok (lead a)) by apply broadcast_refl.
  assert (Ei : irr a' = irr b') by congruence.
  assert (EM : mapM (fun '(c, d) => dot_chunk c d) (combine (chunks a') (chunks b')) = Ok (map (fun '(c, e) => op2 (fun u v => [dotR u v]) 1 (lead a) c e) (combine (chunks a') (chunks b')))).
  { apply mapM_map. intros [c d] Hin. pose proof (chunks_wf a' Ha') as W1. pose proof (chunks_wf b' Hb') as W2.
    destruct c as [c|], d as [d|]; try reflexivity. cbn [dot_chunk op2].
    assert (E1 : c_lead c = lead a) by (rewrite <- A2; apply (chunks_ok_any_lead _ _ _ _ _ (chunks_chunks_ok a' Ha')); apply in_combine_l in Hin; exact Hin).
    assert (E2 : c_lead d = lead a) by (rewrite El, <- B2; apply (chunks_ok_any_lead _ _ _ _ _ (chunks_chunks_ok b' Hb')); apply in_combine_r in Hin; exact Hin).
    rewrite E1, E2, Hs. reflexivity. }
  rewrite EM. cbn [bind]. clear EM.
  assert (Eo : map2 (fun p q : mulirrep => (fst p, even_scalar)) (irr a') (irr b') = map (fun '(mul, _) => (mul, even_scalar)) (simplify (irr b))).
  { rewrite Ei, B1. generalize (simplify (irr b)). intros l0. unfold map2. induction l0 as [|[m ir] l IH]; [reflexivity|]. cbn [combine map fst]. rewrite IH. reflexivity. }
  pose proof (op2_yields (fun u v => [dotR u v]) (fun _ _ => even_scalar) (fun _ => True) (fun _ => True) (lead a) (lead a) (lead a) Hs) as OP.
  specialize (OP ltac:(reflexivity)).
  specialize (OP ltac:(intros; cbv beta; rewrite dotR_zero_l; reflexivity)).
  specialize (OP ltac:(intros; cbv beta; rewrite dotR_zero_r; reflexivity)).
  specialize (OP a' b' _ Ha' Hb' A2 ltac:(congruence) ltac:(congruence) ltac:(apply Forall_forall; auto) ltac:(apply Forall_forall; auto) eq_refl).
  cbv beta in OP. rewrite Eo in OP. 
  assert (Ech : map snd (map2 (out2 (fun u v => [dotR u v]) (fun _ _ => even_scalar) (lead a)) (pairs a') (pairs b')) = map (fun '(c, e) => op2 (fun u v => [dotR u v]) 1 (lead a) c e) (combine (chunks a') (chunks b'))).
  { rewrite map_snd_map2_out2; [|unfold pairs; rewrite !combine_length, !chunks_length by assumption; rewrite Ei; reflexivity].
    rewrite !pairs_fst, !pairs_snd by assumption. pose proof (chunks_length a' Ha') as Q1. pose proof (chunks_length b' Hb') as Q2. rewrite Ei in *. revert Q1 Q2.
    generalize (chunks a') (chunks b') (irr b'). clear. intros ca cb x. revert ca cb. induction x as [|m x IH]; intros [|c ca] [|d cb] L1 L2; try discriminate; [reflexivity|].
    cbn [combine map]. rewrite IH by (injection L1; injection L2; auto). reflexivity. }
  rewrite Ech in OP. eapply yields_ext; [|exact OP]. intros i Hi. cbv beta. rewrite bidx_id by exact Hi. rewrite A1, B1, Es.
  rewrite (Aa i Hi), (Bb i) by (rewrite <- El; exact Hi). unfold map2. rewrite <- (concat_singletons (fun '(u, v) => dotR u v)). f_equal. apply map_ext. intros []. reflexivity.
Qed.

(* ---------- alignment of multiplicities ---------- *)
Lemma align_loop_spec : forall fuel x y u v, align_loop fuel x y = (u, v) -> length x + length y <= fuel ->
  flat u = flat x /\ flat v = flat y /\
  exists w t1 t2, map fst u = w ++ t1 /\ map fst v = w ++ t2 /\ (t1 = [] \/ t2 = []) /\
    (Forall (fun m => 0 < fst m) x -> Forall (fun m => 0 < fst m) y -> Forall (fun n => 0 < n) t1 /\ Forall (fun n => 0 < n) t2).
Proof.
  induction fuel as [|fuel IH]; intros x y u v E Hf.
  - destruct x, y; cbn [length] in Hf; try lia. injection E as <- <-. split; [reflexivity|]. split; [reflexivity|]. exists [], [], []. cbn. auto.
  - destruct x as [|[m1 a] x]; [|destruct y as [|[m2 b] y]].
    + injection E as <- <-. split; [reflexivity|]. split; [reflexivity|]. exists [], [], (map fst y). cbn. split; [reflexivity|]. split; [reflexivity|].
      split; [auto|]. intros _ H. split; [constructor|]. apply Forall_map, H.
    + injection E as <- <-. split; [reflexivity|]. split; [reflexivity|]. exists [], (map fst ((m1, a) :: x)), []. split; [reflexivity|]. split; [reflexivity|].
      split; [auto|]. intros H _. split; [|constructor]. apply Forall_map, H.
    + cbn [align_loop] in E. cbn [length] in Hf. destruct (Nat.ltb_spec m1 m2) as [H12|H12]; [|destruct (Nat.ltb_spec m2 m1) as [H21|H21]].
      * destruct (align_loop fuel x ((m2 - m1, b) :: y)) as [u' v'] eqn:E'. injection E as <- <-.
        destruct (IH _ _ _ _ E' ltac:(cbn [length]; lia)) as (A & B & w & t1 & t2 & C1 & C2 & D & P). rewrite !flat_cons in *. rewrite A, B. split; [reflexivity|]. split.
        -- cbn [fst snd]. rewrite app_assoc, <- repeat_app. repeat f_equal. lia.
        -- exists (m1 :: w), t1, t2. cbn [map fst app]. rewrite C1, C2. split; [reflexivity|]. split; [reflexivity|]. split; [exact D|].
           intros Hx Hy. inversion Hx; inversion Hy; subst. apply P; [assumption|]. constructor; [cbn; lia|assumption].
      * destruct (align_loop fuel ((m1 - m2, a) :: x) y) as [u' v'] eqn:E'. injection E as <- <-.
        destruct (IH _ _ _ _ E' ltac:(cbn [length]; lia)) as (A & B & w & t1 & t2 & C1 & C2 & D & P). rewrite !flat_cons in *. rewrite A, B. split; [|split; [reflexivity|]].
        -- cbn [fst snd]. rewrite app_assoc, <- repeat_app. repeat f_equal. lia.
        -- exists (m2 :: w), t1, t2. cbn [map fst app]. rewrite C1, C2. split; [reflexivity|]. split; [reflexivity|]. split; [exact D|].
           intros Hx Hy. inversion Hx; inversion Hy; subst. apply P; [|assumption]. constructor; [cbn; lia|assumption].
      * assert (m1 = m2) by lia. subst m2. destruct (align_loop fuel x y) as [u' v'] eqn:E'. injection E as <- <-.
        destruct (IH _ _ _ _ E' ltac:(lia)) as (A & B & w & t1 & t2 & C1 & C2 & D & P). rewrite !flat_cons in *. rewrite A, B. split; [reflexivity|]. split; [reflexivity|].
        exists (m1 :: w), t1, t2. cbn [map fst app]. rewrite C1, C2. split; [reflexivity|]. split; [reflexivity|]. split; [exact D|].
        intros Hx Hy. inversion Hx; inversion Hy; subst. apply P; assumption.
Qed.
Lemma align_sound x y u v : align_two_irreps x y = Ok (u, v) -> map fst u = map fst v /\ flat u = flat x /\ flat v = flat y /\ num_irreps x = num_irreps y.
Proof.
  unfold align_two_irreps, assert. destruct (Nat.eqb_spec (num_irreps x) (num_irreps y)) as [E|]; [|discriminate]. cbn [bind].
  destruct (align_loop (length x + length y) x y) as [u' v'] eqn:El. destruct (list_eqb (map fst u') (map fst v')) eqn:Eq; [|discriminate]. cbn [bind].
  intros [= -> ->]. destruct (align_loop_spec _ _ _ _ _ El (Nat.le_refl _)) as (A & B & _). apply list_eqb_eq in Eq. auto.
Qed.
Lemma sum_app' a b : sum (a ++ b) = sum a + sum b.
Proof. induction a as [|n a IH]; [reflexivity|]. change (sum ((n :: a) ++ b)) with (n + sum (a ++ b)). change (sum (n :: a)) with (n + sum a). lia. Qed.
Lemma align_total x y : num_irreps x = num_irreps y -> Forall (fun m => 0 < fst m) x -> Forall (fun m => 0 < fst m) y ->
  exists u v, align_two_irreps x y = Ok (u, v).
Proof.
  intros E Hx Hy. unfold align_two_irreps, assert. rewrite E, Nat.eqb_refl. cbn [bind].
  destruct (align_loop (length x + length y) x y) as [u v] eqn:El. destruct (align_loop_spec _ _ _ _ _ El (Nat.le_refl _)) as (A & B & w & t1 & t2 & C1 & C2 & D & P).
  exists u, v. replace (list_eqb (map fst u) (map fst v)) with true; [reflexivity|]. symmetry. apply list_eqb_eq. rewrite C1, C2. f_equal.
  destruct (P Hx Hy) as [P1 P2]. 
  assert (S : sum (map fst u) = sum (map fst v)).
  { change (num_irreps u = num_irreps v). rewrite <- !flat_length, A, B, !flat_length. exact E. }
  rewrite C1, C2, !sum_app' in S. destruct D as [-> | ->].
  - destruct t2 as [|n t2]; [reflexivity|]. inversion P2; subst. change (sum (n :: t2)) with (n + sum t2) in S. change (sum []) with 0 in S. lia.
  - destruct t1 as [|n t2]; [reflexivity|]. inversion P1; subst. change (sum (n :: t2)) with (n + sum t2) in S. change (sum []) with 0 in S. lia.
Qed.
Lemma align_rejects x y : num_irreps x <> num_irreps y -> align_two_irreps x y = Err AssertionError.
Proof. intros H. unfold align_two_irreps, assert. destruct (Nat.eqb_spec (num_irreps x) (num_irreps y)); [contradiction|reflexivity]. Qed.
Lemma align_arrays_yields x y u v : coherent x -> coherent y -> align_two_irreps (irr x) (irr y) = Ok (u, v) ->
  exists x' y', align_two_arrays x y = Ok (x', y') /\ map fst u = map fst v /\
    irr x' = u /\ lead x' = lead x /\ coherent x' /\ (forall i, valid (lead x) i -> arr x' i = arr x i) /\
    irr y' = v /\ lead y' = lead y /\ coherent y' /\ (forall i, valid (lead y) i -> arr y' i = arr y i).
Proof.
  intros Hx Hy E. destruct (align_sound _ _ _ _ E) as (M & A & B & _). unfold align_two_arrays. rewrite E. cbn [bind].
  destruct (rechunk_yields x u Hx) as (x' & -> & X1 & X2 & X3 & X4); [apply simplify_iff; congruence|]. cbn [bind].
  destruct (rechunk_yields y v Hy) as (y' & -> & Y1 & Y2 & Y3 & Y4); [apply simplify_iff; congruence|]. cbn [bind].
  exists x', y'. auto 12.
Qed.

(* ---------- cross ---------- *)
Definition cross_irrep (a b : irrep) : irrep := Irrep 1 (pmul (ir_p a) (ir_p b)).
Lemma cross_row_length u v : length u = 3 -> length v = 3 -> length (cross_row u v) = 3.
Proof. destruct u as [|? [|? [|? [|]]]], v as [|? [|? [|? [|]]]]; try discriminate. reflexivity. Qed.
Lemma cross_row_zero_l v : length v = 3 -> cross_row (zero_row 3) v = zero_row 3.
Proof. destruct v as [|a [|b [|c [|]]]]; try discriminate. intros _. cbn. repeat f_equal; lra. Qed.
Lemma cross_row_zero_r v : length v = 3 -> cross_row v (zero_row 3) = zero_row 3.
Proof. destruct v as [|a [|b [|c [|]]]]; try discriminate. intros _. cbn. repeat f_equal; lra. Qed.
Definition is_vector (ir : irrep) : Prop := ir_l ir = 1.
Lemma vector_dim ir : is_vector ir -> ir_dim ir = 3.
Proof. unfold is_vector, ir_dim. intros ->. reflexivity. Qed.
Lemma flat_Forall (P : irrep -> Prop) x y : flat x = flat y -> Forall (fun m => P (snd m)) y -> Forall (fun m => 0 < fst m -> P (snd m)) x.
Proof.
  intros E H. assert (Q : Forall P (flat y)).
  { clear E. induction H as [|[m ir] y Hm H IH]; [constructor|]. rewrite flat_cons. apply Forall_app. split; [|assumption]. apply Forall_forall. intros a Ha. apply repeat_spec in Ha. subst. exact Hm. }
  rewrite <- E in Q. clear E H. induction x as [|[m ir] x IH]; [constructor|]. rewrite flat_cons in Q. apply Forall_app in Q as [Q1 Q2]. constructor; [|auto].
  cbn. intros Hm. destruct m; [lia|]. inversion Q1; assumption.
Qed.
(* the alignment keeps the irreps of the entries among those given *)
Lemma align_loop_In : forall fuel x y u v, align_loop fuel x y = (u, v) ->
  (forall m, In m u -> In (snd m) (map snd x)) /\ (forall m, In m v -> In (snd m) (map snd y)).
Proof.
  induction fuel as [|fuel IH]; intros x y u v E.
  - injection E as <- <-. split; intros m Hm; apply in_map, Hm.
  - destruct x as [|[m1 a] x]; [|destruct y as [|[m2 b] y]]; try (injection E as <- <-; split; intros m Hm; apply in_map, Hm).
    cbn [align_loop] in E. destruct (m1 <? m2); [|destruct (m2 <? m1)].
    + destruct (align_loop fuel x ((m2 - m1, b) :: y)) as [u' v'] eqn:E'. injection E as <- <-. destruct (IH _ _ _ _ E') as [A B]. cbn [map snd] in *.
      split; intros m [<-|Hm]; cbn [snd]; [left; reflexivity|right; auto|left; reflexivity|]. specialize (B _ Hm). exact B.
    + destruct (align_loop fuel ((m1 - m2, a) :: x) y) as [u' v'] eqn:E'. injection E as <- <-. destruct (IH _ _ _ _ E') as [A B]. cbn [map snd] in *.
      split; intros m [<-|Hm]; cbn [snd]; [left; reflexivity| |left; reflexivity|right; auto]. specialize (A _ Hm). exact A.
    + destruct (align_loop fuel x y) as [u' v'] eqn:E'. injection E as <- <-. destruct (IH _ _ _ _ E') as [A B]. cbn [map snd] in *.
      split; intros m [<-|Hm]; cbn [snd]; [left; reflexivity|right; auto|left; reflexivity|right; auto].
Qed.
Lemma align_In x y u v : align_two_irreps x y = Ok (u, v) -> (forall m, In m u -> In (snd m) (map snd x)) /\ (forall m, In m v -> In (snd m) (map snd y)).
Proof.
  unfold align_two_irreps, assert. destruct (num_irreps x =? num_irreps y); [|discriminate]. cbn [bind].
  destruct (align_loop (length x + length y) x y) as [u' v'] eqn:El. destruct (list_eqb (map fst u') (map fst v')); [|discriminate]. intros [= <- <-].
  apply (align_loop_In _ _ _ _ _ El).
Qed.
Lemma all_vectors (x : irreps) : Forall (fun m => is_vector (snd m)) x -> existsb (fun '(_, ir) => negb (ir_l ir =? 1)) x = false.
Proof. induction 1 as [|[m ir] x H _ IH]; [reflexivity|]. cbn [existsb]. cbn in H. unfold is_vector in H. rewrite H. exact IH. Qed.
Lemma combine_flat_map {A B} (u : list (nat * A)) : forall (v : list (nat * B)), map fst u = map fst v ->
  combine (flat_map (fun p : nat * A => repeat (snd p) (fst p)) u) (flat_map (fun p : nat * B => repeat (snd p) (fst p)) v) = flat_map (fun p : (nat * A) * (nat * B) => repeat (snd (fst p), snd (snd p)) (fst (fst p))) (combine u v).
Proof.
  induction u as [|[m a] u IH]; intros [|[m' b] v] E; try discriminate; [reflexivity|]. cbn [map fst] in E. injection E as <- E. cbn [flat_map combine fst snd].
  rewrite combine_app' by (rewrite !repeat_length; reflexivity). rewrite IH by exact E. f_equal.
  clear. induction m; cbn; congruence.
Qed.
(* the rows of the two inputs, paired one to one *)
Lemma instances_flat x y a : length a = dim x -> flat x = flat y -> instances x a = instances y a.
Proof.
  assert (H : forall x a, length a = dim x -> instances x a = (fix cut (l : list irrep) (a : list R) := match l with [] => [] | ir :: l => firstn (ir_dim ir) a :: cut l (skipn (ir_dim ir) a) end) (flat x) a).
  { clear. induction x as [|[m ir] x IH]; intros a L; [reflexivity|]. rewrite dim_cons in L. unfold mi_dim in L. cbn [fst snd] in L. unfold instances. cbn [blocks combine flat_map fst snd].
    fold (instances x (skipn (mi_dim (m, ir)) a)). rewrite IH by (rewrite skipn_length; unfold mi_dim; cbn [fst snd]; lia). rewrite flat_cons. unfold mi_dim. cbn [fst snd].
    clear IH. revert a L. induction m as [|m IH]; intros a L; [reflexivity|]. cbn [repeat app]. rewrite group_rows_S. cbn [app].
    rewrite firstn_firstn. rewrite Nat.min_l by lia. f_equal. replace (S m * ir_dim ir) with (ir_dim ir + m * ir_dim ir) by lia. rewrite <- skipn_skipn.
    rewrite <- IH by (rewrite skipn_length; lia). f_equal. f_equal. rewrite <- firstn_skipn_comm'. reflexivity. }
  intros L E. rewrite (H x a L), (H y a), E; [reflexivity|]. rewrite L, !dim_flat, E. reflexivity.
Qed.
Lemma cross_yields a b u v s : coherent a -> coherent b -> Forall (fun m => is_vector (snd m)) (irr a) -> Forall (fun m => is_vector (snd m)) (irr b) ->
  align_two_irreps (irr a) (irr b) = Ok (u, v) -> broadcast_shapes (lead a) (lead b) = Ok s ->
  yields (cross a b) (map2 (fun p q => (fst p, cross_irrep (snd p) (snd q))) u v) s
    (fun i => concat (map2 cross_row (instances (irr a) (arr a (bidx (lead a) i))) (instances (irr b) (arr b (bidx (lead b) i))))).
Proof.
  intros Ha Hb Pa Pb E Hs. unfold cross. rewrite (all_vectors _ Pa), (all_vectors _ Pb).
  destruct (align_sound _ _ _ _ E) as (M & Fu & Fv & En). rewrite En, Nat.eqb_refl. cbn [negb].
  destruct (align_arrays_yields a b u v Ha Hb E) as (a' & b' & -> & _ & A1 & A2 & Ha' & Aa & B1 & B2 & Hb' & Bb). cbn [bind].
  rewrite A2, B2, Hs. cbn [bind].
  destruct (align_In _ _ _ _ E) as [Iu Iv].
  assert (Pu : Forall (fun m => is_vector (snd m)) u).
  { apply Forall_forall. intros m Hm. specialize (Iu m Hm). apply in_map_iff in Iu as (m' & <- & Hm'). rewrite Forall_forall in Pa. apply Pa, Hm'. }
  assert (Pv : Forall (fun m => is_vector (snd m)) v).
  { apply Forall_forall. intros m Hm. specialize (Iv m Hm). apply in_map_iff in Iv as (m' & <- & Hm'). rewrite Forall_forall in Pb. apply Pb, Hm'. }
  assert (EM : mapM (fun '(c, d) => cross_chunk c d) (combine (chunks a') (chunks b')) = Ok (map (fun '(c, e) => op2 cross_row 3 s c e) (combine (chunks a') (chunks b')))).
  { apply mapM_map. intros [c d] Hin. destruct c as [c|], d as [d|]; try reflexivity. cbn [cross_chunk op2].
    assert (E1 : c_lead c = lead a) by (rewrite <- A2; apply (chunks_ok_any_lead _ _ _ _ _ (chunks_chunks_ok a' Ha')); apply in_combine_l in Hin; exact Hin).
    assert (E2 : c_lead d = lead b) by (rewrite <- B2; apply (chunks_ok_any_lead _ _ _ _ _ (chunks_chunks_ok b' Hb')); apply in_combine_r in Hin; exact Hin).
    rewrite E1, E2, Hs. reflexivity. }
  rewrite EM. cbn [bind]. clear EM.
  pose proof (op2_yields cross_row cross_irrep is_vector is_vector (lead a) (lead b) s Hs) as OP.
  assert (H1 : forall ir1 ir2 u v, is_vector ir1 -> is_vector ir2 -> length u = ir_dim ir1 -> length v = ir_dim ir2 -> length (cross_row u v) = ir_dim (cross_irrep ir1 ir2)).
  { intros ir1 ir2 p q Q1 Q2. rewrite !vector_dim by (assumption || reflexivity). apply cross_row_length. }
  assert (H2 : forall ir1 ir2 v, is_vector ir1 -> is_vector ir2 -> length v = ir_dim ir2 -> cross_row (zero_row (ir_dim ir1)) v = zero_row (ir_dim (cross_irrep ir1 ir2))).
  { intros ir1 ir2 q Q1 Q2. rewrite !vector_dim by (assumption || reflexivity). apply cross_row_zero_l. }
  assert (H3 : forall ir1 ir2 u, is_vector ir1 -> is_vector ir2 -> length u = ir_dim ir1 -> cross_row u (zero_row (ir_dim ir2)) = zero_row (ir_dim (cross_irrep ir1 ir2))).
  { intros ir1 ir2 q Q1 Q2. rewrite !vector_dim by (assumption || reflexivity). apply cross_row_zero_r. }
  specialize (OP H1 H2 H3 a' b' _ Ha' Hb' A2 B2 ltac:(congruence) ltac:(rewrite A1; exact Pu) ltac:(rewrite B1; exact Pv) eq_refl).
  cbv beta in OP. rewrite A1, B1 in *.
  assert (Eo : map (fun '((mul, p), (_, q)) => (mul, Irrep 1 (pmul (ir_p p) (ir_p q)))) (combine u v) = map2 (fun p q => (fst p, cross_irrep (snd p) (snd q))) u v).
  { unfold map2. apply map_ext. intros [[m p] [m' q]]. reflexivity. }
  assert (Ech : map snd (map2 (out2 cross_row cross_irrep s) (pairs a') (pairs b')) = map (fun '(c, e) => op2 cross_row 3 s c e) (combine (chunks a') (chunks b'))).
  { assert (Lp : length u = length v) by (rewrite <- (map_length fst u), M; apply map_length).
    rewrite map_snd_map2_out2; [|unfold pairs; rewrite !combine_length, !chunks_length by assumption; rewrite A1, B1; lia].
    rewrite !pairs_fst, !pairs_snd by assumption. pose proof (chunks_length a' Ha') as Q1. pose proof (chunks_length b' Hb') as Q2. rewrite A1, B1 in *. revert Q1 Q2 Lp.
    generalize (chunks a') (chunks b'). clear. intros ca cb. revert v ca cb. induction u as [|m x IH]; intros [|n y] [|c ca] [|d cb] L1 L2 L3; try discriminate; [reflexivity|].
    cbn [combine map]. rewrite IH by (injection L1; injection L2; injection L3; auto). reflexivity. }
  rewrite Ech in OP. rewrite Eo. eapply yields_ext; [|exact OP]. intros i Hi. cbv beta. destruct (broadcast_valid _ _ _ _ Hs Hi) as [Va Vb].
  rewrite (Aa _ Va), (Bb _ Vb). rewrite (instances_flat u (irr a)), (instances_flat v (irr b)); auto.
  - rewrite (proj1 Hb _ Vb), !dim_flat. congruence.
  - rewrite (proj1 Ha _ Va), !dim_flat. congruence.
Qed.
