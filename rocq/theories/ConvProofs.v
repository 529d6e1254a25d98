(* The zero flags of a result depend only on the irreps and the zero flags of the inputs. *)
From Coq Require Import Reals Lra Lia List Arith Bool.
From Verif Require Import PyBase PermModel PermProofs IrrepsModel IrrepsProofs IrrepsProofs2 IrrepsStr ArrayModel ArrayProofs ArrayOps RechunkProofs ArithProofs LeadModel LeadProofs BlockProofs AxisProofs StackProofs BilinProofs ActProofs EquivProofs EquivProofs2 SumR EntryProofs TPModel TPProofs TPProofs2 TPProofs3 GradProofs LinearModel LinearProofs LinearProps LinearComplete NormProofs LinModModel LinModProofs LinModProofs2 CGModel ConvModel.
Import ListNotations.
Open Scope nat_scope.

Record kin (x y : iarray) : Prop := { kin_l : coherent x; kin_r : coherent y; kin_irr : irr x = irr y; kin_flags : zero_flags x = zero_flags y }.
Lemma kin_chunks x y : kin x y -> map is_none (chunks x) = map is_none (chunks y).
Proof. intros [A B I F]. now rewrite <- !chunks_flags. Qed.
Lemma from_chunks_flags x cs s dt y : from_chunks x cs s dt = Ok y -> irr y = x /\ zero_flags y = map is_none cs.
Proof.
  unfold from_chunks. destruct (negb _); [discriminate|]. destruct (negb _); [discriminate|]. destruct (negb _); [discriminate|]. intros E. split; [|apply mkIA_flags in E; exact E].
  unfold mkIA in E. repeat (destruct (negb _); [discriminate|]). injection E as <-. reflexivity.
Qed.
Lemma mkIA_irr x s w a z c y : mkIA x s w a z c = Ok y -> irr y = x.
Proof. unfold mkIA. repeat (destruct (negb _); [discriminate|]). intros E. injection E as <-. reflexivity. Qed.
Lemma zip_filter_flags {A} (g : A -> bool) : forall (cs ds : list (option chunk)) (l : list A), map is_none cs = map is_none ds ->
  map is_none (map fst (filter (fun '(_, m) => g m) (combine cs l))) = map is_none (map fst (filter (fun '(_, m) => g m) (combine ds l))).
Proof.
  induction cs as [|c cs IH]; intros [|d ds] l E; try discriminate; [reflexivity|]. injection E as E1 E2. destruct l as [|m l]; [reflexivity|]. cbn [combine filter]. destruct (g m); [|now apply IH]. cbn [map fst]. rewrite E1. f_equal. now apply IH.
Qed.
Definition same_out (x y : iarray) : Prop := irr x = irr y /\ zero_flags x = zero_flags y.
Lemma filter_same x y keep drop lm z w : kin x y -> ia_filter x keep drop lm = Ok z -> ia_filter y keep drop lm = Ok w -> same_out z w.
Proof.
  intros K E1 E2. pose proof (kin_chunks _ _ K) as KC. destruct K as [A B I F].
  assert (G : forall z w, (let! new := filter_irreps (irr x) keep drop lm in from_chunks new (map fst (filter (fun '(_, m) => contains new (snd m)) (combine (chunks x) (irr x)))) (lead x) true) = Ok z ->
    (let! new := filter_irreps (irr y) keep drop lm in from_chunks new (map fst (filter (fun '(_, m) => contains new (snd m)) (combine (chunks y) (irr y)))) (lead y) true) = Ok w -> same_out z w).
  { clear E1 E2 z w. intros z w E1 E2. rewrite <- I in E2. destruct (filter_irreps (irr x) keep drop lm) as [new|]; [|discriminate]. cbn [bind] in *. apply from_chunks_flags in E1 as [J1 F1]. apply from_chunks_flags in E2 as [J2 F2]. split; [congruence|]. rewrite F1, F2. now apply (zip_filter_flags (fun m => contains new (snd m))). }
  unfold ia_filter in E1, E2. destruct keep, drop, lm; try (now apply G). injection E1 as <-. injection E2 as <-. split; assumption.
Qed.
Lemma mapM_get_flags (cs ds : list (option chunk)) : map is_none cs = map is_none ds -> forall l cs' ds', mapM (get cs) l = Ok cs' -> mapM (get ds) l = Ok ds' -> map is_none cs' = map is_none ds'.
Proof.
  intros E. induction l as [|k l IH]; intros cs' ds' E1 E2; [injection E1 as <-; injection E2 as <-; reflexivity|]. cbn [mapM] in *. unfold get in E1 at 1. unfold get in E2 at 1.
  destruct (nth_error cs k) as [c|] eqn:Nc; [|discriminate]. destruct (nth_error ds k) as [d|] eqn:Nd; [|discriminate]. cbn [bind] in *. destruct (mapM (get cs) l) as [a|]; [|discriminate]. destruct (mapM (get ds) l) as [b|]; [|discriminate]. cbn [bind] in *. injection E1 as <-. injection E2 as <-. cbn [map]. rewrite (IH a b eq_refl eq_refl). f_equal.
  assert (H : nth_error (map is_none cs) k = nth_error (map is_none ds) k) by now rewrite E. rewrite !nth_error_map, Nc, Nd in H. cbn in H. now injection H.
Qed.
Lemma sort_same x y z w : kin x y -> ia_sort x = Ok z -> ia_sort y = Ok w -> same_out z w.
Proof.
  intros K E1 E2. pose proof (kin_chunks _ _ K) as KC. destruct K as [A B I F]. unfold ia_sort in *. rewrite <- I in E2. destruct (irreps_sort (irr x)) as [[[s p] inv]|]; [|discriminate]. cbn [bind] in *.
  destruct (mapM (get (chunks x)) inv) as [cs|] eqn:M1; [|discriminate]. destruct (mapM (get (chunks y)) inv) as [ds|] eqn:M2; [|discriminate]. cbn [bind] in *. apply from_chunks_flags in E1 as [J1 F1]. apply from_chunks_flags in E2 as [J2 F2]. split; [congruence|]. rewrite F1, F2. exact (mapM_get_flags _ _ KC _ _ _ M1 M2).
Qed.
Lemma rechunk_flags_out x t z : rechunk x t = Ok z -> zero_flags z = if irreps_eqb (irr x) t then zero_flags x else rechunk_flags x t.
Proof.
  unfold rechunk, rechunk_opt. destruct (negb _); [discriminate|]. destruct (irreps_eqb (irr x) t); [intros E; injection E as <-; reflexivity|].
  destruct (chs x) as [cs|]; [|apply mkIA_flags]. destruct (skip_zeros t) as [zs todo]. destruct (rechunk_outer _ _ _ _ _) as [[[[cur todo'] out]|]|]; try discriminate. destruct (assert _); [|discriminate]. cbn [bind]. destruct (assert _); [|discriminate]. cbn [bind]. destruct (rechunk_check _ _ _); [|discriminate]. cbn [bind]. apply mkIA_flags.
Qed.
Lemma rechunk_same x y t z w : kin x y -> rechunk x t = Ok z -> rechunk y t = Ok w -> zero_flags z = zero_flags w.
Proof.
  intros [A B I F] E1 E2. rewrite (rechunk_flags_out _ _ _ E1), (rechunk_flags_out _ _ _ E2), I, F. destruct (irreps_eqb _ _); [reflexivity|]. unfold rechunk_flags, feature_flags. now rewrite I, F.
Qed.
(* an operation whose result is coherent and has irreps and flags given by those of the input *)
Definition respects (op : iarray -> res iarray) : Prop := forall x y z w, kin x y -> op x = Ok z -> op y = Ok w -> kin z w.
Lemma respects_of op (o : irreps -> list bool -> irreps) (T : iarray -> idx -> list R) (s : iarray -> shape) : (forall x, coherent x -> yields (op x) (o (irr x) (zero_flags x)) (s x) (T x)) ->
  (forall x y z w, kin x y -> op x = Ok z -> op y = Ok w -> zero_flags z = zero_flags w) -> respects op.
Proof.
  intros Y H x y z w K E1 E2. destruct (Y x (kin_l _ _ K)) as (z' & Q1 & I1 & _ & C1 & _). destruct (Y y (kin_r _ _ K)) as (w' & Q2 & I2 & _ & C2 & _). rewrite E1 in Q1. injection Q1 as <-. rewrite E2 in Q2. injection Q2 as <-. constructor; auto; [rewrite I1, I2, (kin_irr _ _ K), (kin_flags _ _ K); reflexivity|]. now apply (H x y).
Qed.
Lemma respects_bind op1 op2 : respects op1 -> respects op2 -> respects (fun x => let! z := op1 x in op2 z).
Proof. intros H1 H2 x y z w K E1 E2. destruct (op1 x) as [a|] eqn:A; [|discriminate]. destruct (op1 y) as [b|] eqn:B; [|discriminate]. cbn [bind] in *. apply (H2 a b); auto. now apply (H1 x y). Qed.
Lemma respects_ok : respects (fun x => Ok x).
Proof. intros x y z w K E1 E2. injection E1 as <-. injection E2 as <-. exact K. Qed.
Lemma coherent_sort x z : coherent x -> ia_sort x = Ok z -> coherent z.
Proof. intros H E. destruct (sort_yields x H) as (z' & Q & _ & _ & C & _). rewrite E in Q. injection Q as <-. exact C. Qed.
Lemma respects_sort : respects ia_sort.
Proof. intros x y z w K E1 E2. destruct (sort_same x y z w K E1 E2) as [I F]. constructor; auto; [apply (coherent_sort x)|apply (coherent_sort y)]; auto; apply K. Qed.
Lemma respects_simplify : respects ia_simplify.
Proof.
  intros x y z w K E1 E2. unfold ia_simplify in *. destruct K as [A B I F]. assert (Si : simplify (irr x) = simplify (simplify (irr x))) by (symmetry; apply simplify_idem). assert (Sj : simplify (irr y) = simplify (simplify (irr y))) by (symmetry; apply simplify_idem).
  destruct (rechunk_yields x _ A Si) as (z' & Q1 & I1 & _ & C1 & _). destruct (rechunk_yields y _ B Sj) as (w' & Q2 & I2 & _ & C2 & _). rewrite E1 in Q1. injection Q1 as <-. rewrite E2 in Q2. injection Q2 as <-. constructor; auto; [congruence|]. rewrite <- I in E2. apply (rechunk_same x y (simplify (irr x))); auto. constructor; auto.
Qed.
Lemma respects_regroup : respects ia_regroup.
Proof. exact (respects_bind _ _ respects_sort respects_simplify). Qed.
Lemma respects_drop : respects remove_zero_chunks.
Proof.
  intros x y z w K E1 E2. destruct (remove_zero_chunks_yields x (kin_l _ _ K)) as (z' & Q1 & I1 & _ & C1 & _). destruct (remove_zero_chunks_yields y (kin_r _ _ K)) as (w' & Q2 & I2 & _ & C2 & _). rewrite E1 in Q1. injection Q1 as <-. rewrite E2 in Q2. injection Q2 as <-.
  constructor; auto; [rewrite I1, I2, (kin_irr _ _ K), (kin_flags _ _ K); reflexivity|]. unfold remove_zero_chunks in *. apply from_chunks_flags in E1 as [_ F1]. apply from_chunks_flags in E2 as [_ F2]. rewrite F1, F2. rewrite <- (kin_flags _ _ K). apply (zip_filter_flags negb). apply kin_chunks, K.
Qed.
Lemma yields_inv (r : res iarray) z x s a : r = Ok z -> yields r x s a -> irr z = x /\ lead z = s /\ coherent z /\ forall i, valid s i -> arr z i = a i.
Proof. intros E (z' & Q & H). rewrite E in Q. injection Q as <-. exact H. Qed.
Lemma concat_same xs ys z w : Forall2 kin xs ys -> concat_last xs = Ok z -> concat_last ys = Ok w -> same_out z w.
Proof.
  intros F E1 E2. unfold concat_last in *. destruct xs as [|x xs]; [discriminate|]. destruct ys as [|y ys]; [discriminate|]. destruct (forallb _ (x :: xs)); [|discriminate]. destruct (forallb _ (y :: ys)); [|discriminate].
  split; [apply mkIA_irr in E1; apply mkIA_irr in E2|apply mkIA_flags in E1; apply mkIA_flags in E2]; rewrite E1, E2; clear -F; induction F as [|a b l m K F IH]; try reflexivity; cbn [flat_map]; rewrite IH; f_equal; apply K.
Qed.
Lemma bil_chunk_flags cg s s' x y cx cy cx' cy' p : map is_none cx = map is_none cx' -> map is_none cy = map is_none cy' -> is_none (bil_chunk cg s x y cx cy p) = is_none (bil_chunk cg s' x y cx' cy' p).
Proof.
  intros E1 E2. unfold bil_chunk. assert (N : forall (c d : list (option chunk)) k, map is_none c = map is_none d -> is_none (nth k c None) = is_none (nth k d None)). { intros c d k E. rewrite <- !(map_nth is_none). now rewrite E. }
  pose proof (N _ _ (b_in1 p) E1) as N1. pose proof (N _ _ (b_in2 p) E2) as N2. destruct (nth (b_in1 p) cx None), (nth (b_in1 p) cx' None); try discriminate; destruct (nth (b_in2 p) cy None), (nth (b_in2 p) cy' None); try discriminate; reflexivity.
Qed.
Lemma bil_same cg nrm ps x y s x' y' s' z w : kin x x' -> kin y y' -> bil_core cg nrm ps x y s = Ok z -> bil_core cg nrm ps x' y' s' = Ok w -> same_out z w.
Proof.
  intros K1 K2 E1 E2. unfold bil_core in *.
  assert (G : from_chunks (bil_out ps) (map (bil_chunk cg s (irr x) (irr y) (chunks x) (chunks y)) ps) s true = Ok z) by (destruct nrm; try exact E1; destruct (existsb _ _) in E1; [discriminate|exact E1]).
  assert (G' : from_chunks (bil_out ps) (map (bil_chunk cg s' (irr x') (irr y') (chunks x') (chunks y')) ps) s' true = Ok w) by (destruct nrm; try exact E2; destruct (existsb _ _) in E2; [discriminate|exact E2]).
  apply from_chunks_flags in G as [I F]. apply from_chunks_flags in G' as [I' F']. split; [congruence|]. rewrite F, F', !map_map. apply map_ext. intros p. rewrite (kin_irr _ _ K1), (kin_irr _ _ K2). apply bil_chunk_flags; now apply kin_chunks.
Qed.
Lemma gathered_flags x s g cs z : gathered x s g cs = Ok z -> zero_flags z = zero_flags x /\ irr z = irr x.
Proof. intros E. split; [now apply mkIA_flags in E|now apply mkIA_irr in E]. Qed.
Lemma broadcast_to_flags x s z : broadcast_to x s = Ok z -> zero_flags z = zero_flags x.
Proof. unfold broadcast_to. destruct (broadcast_shapes (lead x) s); [|discriminate]. cbn [bind]. destruct (negb _); [discriminate|]. intros E. now apply gathered_flags in E. Qed.
Lemma prepare_flags x y r : prepare x y = Ok r -> zero_flags (fst (fst r)) = zero_flags x /\ zero_flags (snd (fst r)) = zero_flags y.
Proof.
  unfold prepare. destruct (broadcast_shapes _ _) as [s0|]; [|discriminate]. cbn [bind]. destruct (broadcast_to x _) as [a|] eqn:A; [|discriminate]. cbn [bind]. destruct (broadcast_to y _) as [b|] eqn:B; [|discriminate]. cbn [bind]. intros E. injection E as <-. cbn [fst snd]. split; eapply broadcast_to_flags; eassumption.
Qed.
Lemma prepare_kin x y x' y' s s' : kin x x' -> kin y y' -> broadcast_shapes (lead x) (lead y) = Ok s -> broadcast_shapes (lead x') (lead y') = Ok s' ->
  exists a b a' b', prepare x y = Ok (a, b, s) /\ prepare x' y' = Ok (a', b', s') /\ kin a a' /\ kin b b' /\ lead a = s /\ lead b = s /\ lead a' = s' /\ lead b' = s'.
Proof.
  intros K1 K2 E E'. destruct (prepare_yields x y s (kin_l _ _ K1) (kin_l _ _ K2) E) as (a & b & Q & A1 & A2 & A3 & _ & B1 & B2 & B3 & _). destruct (prepare_yields x' y' s' (kin_r _ _ K1) (kin_r _ _ K2) E') as (a' & b' & Q' & A1' & A2' & A3' & _ & B1' & B2' & B3' & _).
  exists a, b, a', b'. destruct (prepare_flags _ _ _ Q) as [F1 F2]. destruct (prepare_flags _ _ _ Q') as [F1' F2']. cbn [fst snd] in *. split; [exact Q|]. split; [exact Q'|]. split; [|split; [|auto]]; constructor; auto; try congruence; [rewrite A1, A1'; apply K1|rewrite F1, F1'; apply K1|rewrite B1, B1'; apply K2|rewrite F2, F2'; apply K2].
Qed.
Lemma tp_kin cg nrm flt x y x' y' s s' z w : nrm <> NOther -> kin x x' -> kin y y' -> broadcast_shapes (lead x) (lead y) = Ok s -> broadcast_shapes (lead x') (lead y') = Ok s' ->
  tensor_product cg nrm flt true x y = Ok z -> tensor_product cg nrm flt true x' y' = Ok w -> kin z w.
Proof.
  intros N K1 K2 E E' Z W. unfold tensor_product in *. destruct (prepare_kin _ _ _ _ _ _ K1 K2 E E') as (a & b & a' & b' & Q0 & Q & KA & KB & La & Lb & La' & Lb'). rewrite Q0 in Z. rewrite Q in W. cbn [bind] in *.
  destruct (ia_regroup_yields a (kin_l _ _ KA)) as (a1 & Ea & Ia & Sa & Ca & _). destruct (ia_regroup_yields a' (kin_r _ _ KA)) as (a1' & Ea' & Ia' & Sa' & Ca' & _). destruct (ia_regroup_yields b (kin_l _ _ KB)) as (b1 & Eb & Ib & Sb & Cb & _). destruct (ia_regroup_yields b' (kin_r _ _ KB)) as (b1' & Eb' & Ib' & Sb' & Cb' & _).
  pose proof (respects_regroup _ _ _ _ KA Ea Ea') as KA1. pose proof (respects_regroup _ _ _ _ KB Eb Eb') as KB1. rewrite Ea, Eb in Z. rewrite Ea', Eb' in W. cbn [bind] in *. rewrite (kin_irr _ _ KA1), (kin_irr _ _ KB1) in Z.
  set (ps := tp_paths nrm flt (irr a1') (irr b1')) in *. assert (Ok1 : Forall (path_ok (irr a1) (irr b1)) ps) by (rewrite (kin_irr _ _ KA1), (kin_irr _ _ KB1); apply tp_paths_ok). assert (Ok2 : Forall (path_ok (irr a1') (irr b1')) ps) by apply tp_paths_ok.
  destruct (bil_core_yields cg nrm ps a1 b1 s Ca Cb ltac:(congruence) ltac:(congruence) Ok1 N) as (c & Ec & _ & _ & Cc & _). destruct (bil_core_yields cg nrm ps a1' b1' s' Ca' Cb' ltac:(congruence) ltac:(congruence) Ok2 N) as (c' & Ec' & _ & _ & Cc' & _).
  destruct (bil_same _ _ _ _ _ _ _ _ _ _ _ KA1 KB1 Ec Ec') as [Ic Fc]. rewrite Ec in Z. rewrite Ec' in W. cbn [bind] in *. assert (KC : kin c c') by (constructor; assumption). exact (respects_bind _ _ respects_sort respects_regroup c c' z w KC Z W).
Qed.
Lemma rechunk_kin x y t z w : kin x y -> simplify (irr x) = simplify t -> rechunk x t = Ok z -> rechunk y t = Ok w -> kin z w.
Proof.
  intros K S0 E1 E2. destruct (yields_inv _ _ _ _ _ E1 (rechunk_yields x t (kin_l _ _ K) S0)) as (I1 & _ & C1 & _). assert (S1 : simplify (irr y) = simplify t) by (rewrite <- (kin_irr _ _ K); exact S0). destruct (yields_inv _ _ _ _ _ E2 (rechunk_yields y t (kin_r _ _ K) S1)) as (I2 & _ & C2 & _).
  constructor; auto; [congruence|]. exact (rechunk_same _ _ _ _ _ K E1 E2).
Qed.
Lemma ew_kin cg x y x' y' s s' z w u v : kin x x' -> kin y y' -> broadcast_shapes (lead x) (lead y) = Ok s -> broadcast_shapes (lead x') (lead y') = Ok s' -> align_two_irreps (irr x) (irr y) = Ok (u, v) ->
  elementwise_tensor_product cg NComponent None x y = Ok z -> elementwise_tensor_product cg NComponent None x' y' = Ok w -> kin z w.
Proof.
  intros K1 K2 E E' Al Z W. assert (N : NComponent <> NOther) by discriminate. assert (Al' : align_two_irreps (irr x') (irr y') = Ok (u, v)) by (rewrite <- (kin_irr _ _ K1), <- (kin_irr _ _ K2); exact Al).
  destruct (yields_inv _ _ _ _ _ Z (elementwise_yields cg NComponent None x y s u v (kin_l _ _ K1) (kin_l _ _ K2) N E Al)) as (Iz & _ & Cz & _). destruct (yields_inv _ _ _ _ _ W (elementwise_yields cg NComponent None x' y' s' u v (kin_r _ _ K1) (kin_r _ _ K2) N E' Al')) as (Iw & _ & Cw & _).
  constructor; auto; [congruence|]. unfold elementwise_tensor_product in *. destruct (prepare_kin _ _ _ _ _ _ K1 K2 E E') as (a & b & a' & b' & Q1 & Q2 & KA & KB & La & Lb & La' & Lb'). pose proof (prepare_yields x y s (kin_l _ _ K1) (kin_l _ _ K2) E) as (a0 & b0 & Q0 & Ia & _ & _ & _ & Ib & _). rewrite Q1 in Q0. injection Q0 as <- <-.
  rewrite Q1 in Z. rewrite Q2 in W. cbn [bind] in *. destruct (negb _); [discriminate|]. destruct (negb _) in W; [discriminate|]. unfold align_two_arrays in *. rewrite <- (kin_irr _ _ KA), <- (kin_irr _ _ KB) in W. rewrite Ia, Ib in Z, W. rewrite Al in Z, W. cbn [bind] in Z, W.
  destruct (align_sound _ _ _ _ Al) as (M & Fu & Fv & _). assert (Su : simplify (irr a) = simplify u) by (rewrite Ia; apply simplify_iff; congruence). assert (Sv : simplify (irr b) = simplify v) by (rewrite Ib; apply simplify_iff; congruence).
  destruct (rechunk a u) as [a1|] eqn:A1; [|discriminate]. destruct (rechunk b v) as [b1|] eqn:B1; [|discriminate]. destruct (rechunk a' u) as [a1'|] eqn:A1'; [|discriminate]. destruct (rechunk b' v) as [b1'|] eqn:B1'; [|discriminate]. cbn [bind] in *.
  pose proof (rechunk_kin _ _ _ _ _ KA Su A1 A1') as KA1. pose proof (rechunk_kin _ _ _ _ _ KB Sv B1 B1') as KB1. rewrite (kin_irr _ _ KA1), (kin_irr _ _ KB1) in Z. exact (proj2 (bil_same _ _ _ _ _ _ _ _ _ _ _ KA1 KB1 Z W)).
Qed.
(* ---- Linear ---- *)
Lemma keep_some_flags {A B} (l : list (option A)) (m : list (option B)) : map is_none l = map is_none m -> (keep_some l = [] <-> keep_some m = []).
Proof.
  revert m. induction l as [|a l IH]; intros [|b m] E; try discriminate; [tauto|]. injection E as E1 E2. specialize (IH m E2). unfold keep_some in *. cbn [flat_map]. destruct a, b; try discriminate; cbn [app]; [split; discriminate|exact IH].
Qed.
Lemma filter_zip_flags {A B} (g : linstr -> bool) : forall (ins : list linstr) (ps : list (option A)) (qs : list (option B)), map is_none ps = map is_none qs ->
  map is_none (map snd (filter (fun '(o, _) => g o) (combine ins ps))) = map is_none (map snd (filter (fun '(o, _) => g o) (combine ins qs))).
Proof.
  induction ins as [|o ins IH]; intros [|a ps] [|b qs] E; try discriminate; try reflexivity. injection E as E1 E2. cbn [combine filter]. destruct (g o); [|now apply IH]. cbn [map snd]. rewrite E1. f_equal. now apply IH.
Qed.
Lemma sum_paths_flags s s' m ps qs c d : (ps = [] <-> qs = []) -> sum_paths s m ps = Ok c -> sum_paths s' m qs = Ok d -> is_none c = is_none d.
Proof.
  intros H E1 E2. unfold sum_paths in *. destruct ps as [|p ps], qs as [|q qs].
  - injection E1 as <-. injection E2 as <-. reflexivity.
  - exfalso. discriminate (proj1 H eq_refl).
  - exfalso. discriminate (proj2 H eq_refl).
  - destruct (negb _); [discriminate|]. destruct (negb _) in E2; [discriminate|]. injection E1 as <-. injection E2 as <-. reflexivity.
Qed.
Lemma aggregate_flags L ps qs s s' z w : map is_none ps = map is_none qs -> aggregate_paths L ps s = Ok z -> aggregate_paths L qs s' = Ok w -> same_out z w.
Proof.
  intros E Z W. unfold aggregate_paths in *.
  destruct (mapM _ (enumerate (fl_out L))) as [cs|] eqn:E1 in Z; [|discriminate]. destruct (mapM _ (enumerate (fl_out L))) as [ds|] eqn:E2 in W; [|discriminate]. cbn [bind] in *. apply from_chunks_flags in Z as [I1 F1]. apply from_chunks_flags in W as [I2 F2]. split; [congruence|]. rewrite F1, F2. clear F1 F2 I1 I2.
  revert cs ds E1 E2. generalize (enumerate (fl_out L)). induction l as [|[j m] l IH]; intros cs ds E1 E2; [injection E1 as <-; injection E2 as <-; reflexivity|]. cbn [mapM] in *.
  destruct (sum_paths s m _) as [c|] eqn:P1 in E1; [|discriminate]. destruct (sum_paths s' m _) as [d|] eqn:P2 in E2; [|discriminate]. cbn [bind] in *. destruct (mapM _ l) as [cs1|] eqn:M1 in E1; [|discriminate]. destruct (mapM _ l) as [ds1|] eqn:M2 in E2; [|discriminate]. cbn [bind] in *. injection E1 as <-. injection E2 as <-. cbn [map]. f_equal; [|now apply IH].
  eapply sum_paths_flags; [|exact P1|exact P2]. apply keep_some_flags. now apply (filter_zip_flags (fun o => li_out o =? j)).
Qed.
Lemma eval_flags cs ds o w w' : map is_none cs = map is_none ds -> is_none (eval_path cs o w) = is_none (eval_path ds o w').
Proof.
  intros E. unfold eval_path. destruct (li_in o) as [k|]; [|reflexivity]. assert (N : is_none (nth k cs None) = is_none (nth k ds None)) by (rewrite <- !(map_nth is_none); now rewrite E). destruct (nth k cs None), (nth k ds None); try discriminate; reflexivity.
Qed.
Lemma linear_call_same L ws ws' x y z w : length ws = length ws' -> kin x y -> simplify (irr x) = simplify (fl_in L) -> linear_call L ws x = Ok z -> linear_call L ws' y = Ok w -> same_out z w.
Proof.
  intros Lw K S0 E1 E2. unfold linear_call in *. destruct (rechunk x (fl_in L)) as [a|] eqn:A; [|discriminate]. destruct (rechunk y (fl_in L)) as [b|] eqn:B; [|discriminate]. cbn [bind] in *. pose proof (rechunk_kin _ _ _ _ _ K S0 A B) as KA.
  eapply aggregate_flags; [|exact E1|exact E2]. rewrite !map_map. pose proof (kin_chunks _ _ KA) as KC. clear -Lw KC. revert Lw KC. generalize (chunks a) (chunks b). intros cs ds Lw KC. revert ws ws' Lw. induction (fl_ins L) as [|o l IH]; intros [|w ws] [|w' ws'] Lw; try discriminate; try reflexivity. cbn [combine map]. f_equal; [apply eval_flags, KC|]. apply IH; now injection Lw.
Qed.
