(* The legacy tensor product: the matrix returned by right *)
From Coq Require Import Reals Lra Lia List.
From Verif Require Import PyBase PermModel PermProofs IrrepsModel IrrepsProofs IrrepsProofs2 ArrayModel ArrayProofs ArrayOps RechunkProofs ArithProofs BlockProofs LeadModel LeadProofs StackProofs BilinProofs ActProofs EquivProofs EquivProofs2 SumR TPModel LinearModel LinearProofs TPProofs TPProofs2 LinearProps TPProps3 TPProps4 SymProofs2 ArrayProps3 LegacyModel GSProofs LegacyProofs LegacyProofs2 LegacyProofs3 LegacyProofs4.
From Verif Require Import EntryProofs.
Import ListNotations.
Open Scope nat_scope.

(* the modes that right implements *)
Definition rightable (o : tinstr) : Prop := match ti_mode o with UvuLtv | ULtvw | MBad => False | _ => True end.

Lemma uniform_map n c (g : nat -> list R) : (forall a, a < n -> length (g a) = c) -> Forall (fun r => length r = c) (map g (seq 0 n)).
Proof. intros H. apply Forall_map, Forall_forall. intros a Ha. apply in_seq in Ha. apply H. lia. Qed.
Lemma concat_map_length n c (g : nat -> list R) : (forall a, a < n -> length (g a) = c) -> length (concat (map g (seq 0 n))) = n * c.
Proof. intros H. rewrite (concat_length_uniform c) by (apply uniform_map, H). rewrite map_length, seq_length. reflexivity. Qed.
Lemma nth_concat_map n c (g : nat -> list R) a r : (forall a, a < n -> length (g a) = c) -> a < n -> r < c -> nth (a * c + r) (concat (map g (seq 0 n))) 0%R = nth r (g a) 0%R.
Proof. intros H Ha Hr. rewrite nth_concat; [|apply uniform_map, H|exact Hr|rewrite map_length, seq_length; exact Ha]. change (map g (seq 0 n)) with (tab n g). rewrite nth_tab by exact Ha. reflexivity. Qed.
Lemma flat3_length n1 n2 d f : length (concat (map (fun u => flat2 n2 d (f u)) (seq 0 n1))) = n1 * (n2 * d).
Proof. apply concat_map_length. intros. apply flat2_length. Qed.
Lemma flat4_length n1 n2 n3 n4 f : length (flat4 n1 n2 n3 n4 f) = n1 * n2 * (n3 * n4).
Proof. unfold flat4. rewrite (concat_map_length _ (n2 * (n3 * n4))) by (intros; apply flat3_length). lia. Qed.
Lemma flat4_nth n1 n2 n3 n4 f a b c e : a < n1 -> b < n2 -> c < n3 -> e < n4 -> nth ((a * n2 + b) * (n3 * n4) + (c * n4 + e)) (flat4 n1 n2 n3 n4 f) 0%R = f a b c e.
Proof.
  intros Ha Hb Hc He. unfold flat4. assert (Q : c * n4 + e < n3 * n4) by nia. replace ((a * n2 + b) * (n3 * n4) + (c * n4 + e)) with (a * (n2 * (n3 * n4)) + (b * (n3 * n4) + (c * n4 + e))) by ring.
  rewrite (nth_concat_map n1 (n2 * (n3 * n4))); [|intros; apply flat3_length|exact Ha|]. 2:{ set (q := n3 * n4) in *. set (t := c * n4 + e) in *. clearbody q t. nia. }
  rewrite (nth_concat_map n2 (n3 * n4)) by (auto; intros; apply flat2_length). apply flat2_nth; assumption.
Qed.
(* every mode of right is the same table of coefficients *)
Lemma right_value_ok mode hw m1 m2 mo d1 d w H prev : match mode with UvuLtv | ULtvw | MBad => False | _ => True end -> mode_ok mode hw m1 m2 mo -> 0 < m2 ->
  exists l, right_value mode hw m1 m2 mo d1 d w H prev = Ok l /\ length l = m1 * d1 * (mo * d) /\
    forall u i z k, u < m1 -> i < d1 -> z < mo -> k < d -> nth ((u * d1 + i) * (mo * d) + (z * d + k)) l 0%R = rsum m2 (fun v => coefficient mode hw m1 m2 mo w u v z * H v i k)%R.
Proof.
  intros HR M M2. unfold right_value. destruct mode; cbn [mode_ok] in M; try contradiction.
  - rewrite M. cbn [assert bind]. eexists. split; [reflexivity|]. split; [apply flat4_length|]. intros u i z k Hu Hi Hz Hk. rewrite flat4_nth by assumption. reflexivity.
  - rewrite <- M, Nat.eqb_refl. cbn [assert bind]. eexists. split; [reflexivity|]. split; [apply flat4_length|]. intros u i z k Hu Hi Hz Hk. rewrite flat4_nth by assumption. cbn [coefficient]. apply rsum_ext. intros v _. unfold eye. rewrite (Nat.eqb_sym u z). destruct (z =? u), hw; ring.
  - rewrite <- M, Nat.eqb_refl. cbn [assert bind]. eexists. split; [reflexivity|]. split; [apply flat4_length|]. intros u i z k Hu Hi Hz Hk. rewrite flat4_nth by assumption. cbn [coefficient].
    rewrite (rsum_ext m2 _ (fun v => if z =? v then (if hw then nth (u * m2 + v) w 0 else 1) * H v i k else 0)%R) by (intros v Hv; destruct (z =? v); [reflexivity|ring]). rewrite (rsum_diag m2 z) by exact Hz. destruct hw; ring.
  - destruct M as [<- M]. rewrite Nat.eqb_refl. cbn [assert bind]. assert (G : forall u i z k, u < m1 -> rsum m1 (fun v => coefficient Uuw hw m1 m1 mo w u v z * H v i k)%R = ((if hw then nth (u * mo + z) w 0 else 1) * H u i k)%R).
    { intros u i z k Hu. rewrite <- (rsum_diag m1 u (fun v => (if hw then nth (u * mo + z) w 0 else 1) * H v i k)%R) by exact Hu. apply rsum_ext. intros v _. cbn [coefficient]. destruct (u =? v); [reflexivity|ring]. }
    destruct hw.
    + eexists. split; [reflexivity|]. split; [apply flat4_length|]. intros u i z k Hu Hi Hz Hk. rewrite flat4_nth by assumption. rewrite G by exact Hu. reflexivity.
    + destruct M as [M|M]; [discriminate|]. rewrite M in *. cbn [assert bind Nat.eqb]. eexists. split; [reflexivity|]. split; [rewrite flat3_length; lia|]. intros u i z k Hu Hi Hz Hk. replace z with 0 by lia. rewrite G by exact Hu. replace ((u * d1 + i) * (1 * d) + (0 * d + k)) with (u * (d1 * d) + (i * d + k)) by ring.
      rewrite (nth_concat_map m1 (d1 * d)); [|intros; apply flat2_length|exact Hu|nia]. rewrite flat2_nth by assumption. ring.
  - destruct M as [<- <-]. rewrite Nat.eqb_refl. cbn [assert bind andb]. eexists. split; [reflexivity|]. split; [apply flat4_length|]. intros u i z k Hu Hi Hz Hk. rewrite flat4_nth by assumption. cbn [coefficient].
    rewrite (rsum_ext m1 _ (fun v => if u =? v then (if z =? u then (if hw then nth u w 0 else 1) * H v i k else 0) else 0)%R) by (intros v Hv; destruct (u =? v), (z =? u); cbn [andb]; ring). rewrite (rsum_diag m1 u) by exact Hu. unfold eye. rewrite (Nat.eqb_sym u z). destruct (z =? u), hw; ring.
  - rewrite M, Nat.eqb_refl. cbn [assert bind]. eexists. split; [reflexivity|].
    assert (L2 : forall u i, length (concat (map (fun z => flat2 m2 d (fun v k => (if hw then (nth (u * m2 + v) w 0 * H v i k)%R else H v i k) * eye u z)%R) (seq 0 m1))) = mo * d) by (intros; rewrite flat3_length, <- M; lia).
    assert (L3 : forall u, length (concat (map (fun i => concat (map (fun z => flat2 m2 d (fun v k => (if hw then (nth (u * m2 + v) w 0 * H v i k)%R else H v i k) * eye u z)%R) (seq 0 m1))) (seq 0 d1))) = d1 * (mo * d)) by (intros; apply concat_map_length; intros; apply L2).
    split; [rewrite (concat_map_length _ (d1 * (mo * d))) by (intros; apply L3); lia|]. intros u i z k Hu Hi Hz Hk. assert (Q : z * d + k < mo * d) by (clear -Hz Hk; nia).
    replace ((u * d1 + i) * (mo * d) + (z * d + k)) with (u * (d1 * (mo * d)) + (i * (mo * d) + (z * d + k))) by ring.
    rewrite (nth_concat_map m1 (d1 * (mo * d))); [|intros; apply L3|exact Hu|]. 2:{ clear -Hi Q. set (q := mo * d) in *. set (t := z * d + k) in *. clearbody q t. nia. }
    rewrite (nth_concat_map d1 (mo * d)) by (auto; intros; apply L2).
    rewrite (flat3 m1 m2 d (fun z v k => ((if hw then (nth (u * m2 + v) w 0 * H v i k)%R else H v i k) * eye u z)%R)). rewrite flat2_nth by (rewrite ?M; assumption). cbn [coefficient].
    assert (N : m2 <> 0) by lia. set (u0 := z / m2). set (v0 := z mod m2). assert (Ez : z = u0 * m2 + v0) by (unfold u0, v0; pose proof (Nat.div_mod z m2 N); lia). assert (Hv : v0 < m2) by (apply Nat.mod_upper_bound, N).
    rewrite (rsum_ext m2 _ (fun v => if v0 =? v then (if u =? u0 then (if hw then nth z w 0 else 1) * H v i k else 0) else 0)%R).
    + rewrite (rsum_diag m2 v0) by exact Hv. unfold eye. destruct (Nat.eqb_spec u u0) as [Eu|]; [|ring]. rewrite Eu, <- Ez. destruct hw; ring.
    + intros v Hv'. destruct (Nat.eqb_spec z (u * m2 + v)) as [E|E].
      * assert (Euv : u0 = u /\ v0 = v). { unfold u0, v0. rewrite E. rewrite Nat.div_add_l, Nat.div_small by assumption. split; [lia|]. rewrite Nat.add_comm, Nat.mod_add by exact N. apply Nat.mod_small, Hv'. } destruct Euv as [Eu Ev]. rewrite Eu, Ev, !Nat.eqb_refl. reflexivity.
      * destruct (Nat.eqb_spec v0 v) as [Ev|], (Nat.eqb_spec u u0) as [Eu|]; try ring. exfalso. apply E. rewrite Eu, <- Ev. exact Ez.
Qed.

(* pieces of a row or a column *)
Lemma pieces_at {A} (df : A) (x : irreps) (G : nat -> mulirrep -> list A) : forall s k m r, (forall k m, nth_error x k = Some m -> length (G (s + k) m) = mi_dim m) -> nth_error x k = Some m -> r < mi_dim m ->
  nth (dim (firstn k x) + r) (flat_map (fun '(k, m) => G k m) (filter (fun '(_, m) => 0 <? fst m) (combine (seq s (length x)) x))) df = nth r (G (s + k) m) df.
Proof.
  induction x as [|m0 x IH]; intros s k m r HL E Hr; [destruct k; discriminate|]. cbn [length seq combine filter].
  assert (HL' : forall k m, nth_error x k = Some m -> length (G (S s + k) m) = mi_dim m) by (intros k' m' E'; replace (S s + k') with (s + S k') by lia; apply HL; exact E').
  pose proof (HL 0 m0 eq_refl) as L0. rewrite Nat.add_0_r in L0. destruct k as [|k].
  - injection E as ->. cbn [firstn]. change (dim []) with 0. rewrite Nat.add_0_r. unfold mi_dim in Hr. destruct (Nat.ltb_spec 0 (fst m)); [|nia]. cbn [flat_map Nat.add]. apply app_nth1. rewrite L0. exact Hr.
  - cbn [nth_error] in E. cbn [firstn]. rewrite dim_cons. replace (s + S k) with (S s + k) by lia. destruct (Nat.ltb_spec 0 (fst m0)) as [P|P]; cbn [flat_map].
    + rewrite app_nth2 by lia. rewrite L0. replace (mi_dim m0 + dim (firstn k x) + r - mi_dim m0) with (dim (firstn k x) + r) by lia. apply IH; assumption.
    + assert (Z : mi_dim m0 = 0) by (unfold mi_dim; nia). rewrite Z. apply IH; assumption.
Qed.
Lemma pieces_length {A} (x : irreps) (G : nat -> mulirrep -> list A) : forall s, (forall k m, nth_error x k = Some m -> length (G (s + k) m) = mi_dim m) ->
  length (flat_map (fun '(k, m) => G k m) (filter (fun '(_, m) => 0 <? fst m) (combine (seq s (length x)) x))) = dim x.
Proof.
  induction x as [|m0 x IH]; intros s HL; [reflexivity|]. cbn [length seq combine filter]. rewrite dim_cons. pose proof (HL 0 m0 eq_refl) as L0. rewrite Nat.add_0_r in L0.
  assert (HL' : forall k m, nth_error x k = Some m -> length (G (S s + k) m) = mi_dim m) by (intros k' m' E'; replace (S s + k') with (s + S k') by lia; apply HL; exact E'). specialize (IH (S s) HL').
  destruct (Nat.ltb_spec 0 (fst m0)) as [P|P]; cbn [flat_map]; [rewrite app_length, IH, L0; reflexivity|]. assert (Z : mi_dim m0 = 0) by (unfold mi_dim; nia). rewrite Z. exact IH.
Qed.
Lemma sum_mats_at h w l a b : Forall (fun v => length v = h * w) l -> a < h -> b < w -> nth b (nth a (sum_mats h w l) []) 0%R = lsum l (fun v => nth (a * w + b) v 0%R).
Proof.
  intros F Ha Hb. unfold sum_mats. rewrite group_rows_nth by assumption. rewrite nth_rowsum; [|exact F|nia]. unfold lsum. clear. induction l as [|v l IH]; [reflexivity|]. cbn [map fold_right]. rewrite IH. reflexivity.
Qed.
Lemma sum_mats_shape h w l : Forall (fun v => length v = h * w) l -> length (sum_mats h w l) = h /\ Forall (fun r => length r = w) (sum_mats h w l).
Proof. intros F. unfold sum_mats. split; [apply group_rows_length|]. apply group_rows_widths. rewrite rowsum_length; [reflexivity|exact F]. Qed.

Section Right.
Variables (cg : coupling) (T : ftp) (c2 : list (option chunk)).
Let x := tp_in1 T.
Let y := tp_in2 T.
Let out := tp_out T.
Hypothesis W2 : Forall2 (wf_opt []) y c2.
Let Y k := centry (nth k c2 None) [].

(* the entry of the matrix of one instruction *)
Definition half_term (c : irrep) (o : tinstr) (w : list R) (u i z k : nat) : R :=
  let a := snd (nth (ti_1 o) x d0) in let b := snd (nth (ti_2 o) y d0) in
  (ti_pw o * rsum (ti_m2 o) (fun v => coefficient (ti_mode o) (ti_hw o) (ti_m1 o) (ti_m2 o) (ti_mo o) w u v z * rsum (ir_dim b) (fun j => cg (ir_l a) (ir_l b) (ir_l c) i j k * Y (ti_2 o) v j)))%R.
Definition mat_ok (p : tinstr * list R) (l : list R) : Prop :=
  let '(o, w) := p in let '(m1, a) := nth (ti_1 o) x d0 in let '(mo, c) := nth (ti_o o) out d0 in
  length l = m1 * ir_dim a * (mo * ir_dim c) /\
  forall u i z k, u < m1 -> i < ir_dim a -> z < mo -> k < ir_dim c -> nth ((u * ir_dim a + i) * (mo * ir_dim c) + (z * ir_dim c + k)) l 0%R = half_term c o w u i z k.
Lemma nth_map0 (f : R -> R) l k : f 0%R = 0%R -> nth k (map f l) 0%R = f (nth k l 0%R).
Proof. intros H. rewrite <- H at 1. apply map_nth. Qed.
Lemma right_outs_ok ins : forall ws prev, Forall (coupled_ins x y out) ins -> Forall suits ins -> Forall rightable ins -> weights_fit ins ws -> Forall (fun o => nth (ti_2 o) c2 None <> None) ins ->
  exists outs, right_outs cg T c2 ins ws prev = Ok outs /\ Forall2 mat_ok (assign ins ws) outs.
Proof.
  induction ins as [|o ins IH]; intros ws prev HC HS HR HW HN; [exists []; split; [reflexivity|constructor]|].
  inversion HC as [|? ? Ho HC']; subst. inversion HS as [|? ? So HS']; subst. inversion HR as [|? ? Ro HR']; subst. inversion HN as [|? ? No HN']; subst. destruct Ho as (m1 & a & m2 & b & mo & c & E1 & E2 & E3 & Hc & M1 & M2 & M3).
  cbn [right_outs]. unfold entry_of. fold x y out. rewrite (nth_error_nth _ _ _ E1), (nth_error_nth _ _ _ E2), (nth_error_nth _ _ _ E3).
  set (w := if ti_hw o then match ws with w :: _ => t_val w | [] => [] end else []). set (ws' := if ti_hw o then tl ws else ws).
  assert (EW : (if ti_hw o then match ws with [] => Err IndexError | w :: _ => if shape_eqb (t_shape w) (path_shape o) then Ok (t_val w) else Err AssertionError end else Ok []) = Ok w /\ weights_fit ins ws' /\ assign (o :: ins) ws = (o, w) :: assign ins ws').
  { unfold weights_fit in HW. cbn [filter assign] in *. unfold w, ws'. destruct (ti_hw o); [|split; [reflexivity|split; [exact HW|reflexivity]]]. inversion HW as [|? w0 ? ws0 [Sh _] HW' Eq1 Eq2]; subst. rewrite Sh. assert (Q : shape_eqb (path_shape o) (path_shape o) = true) by (apply shape_eqb_eq; reflexivity). rewrite Q. split; [reflexivity|]. split; [exact HW'|reflexivity]. }
  destruct EW as (Ew & HW' & Ea). rewrite Ew, Ea. cbn [bind]. fold ws'.
  destruct ((mi_dim (m1, a) =? 0) || (mi_dim (m2, b) =? 0) || (mi_dim (mo, c) =? 0)) eqn:Z.
  - destruct (IH ws' prev HC' HS' HR' HW' HN') as (outs & Eo & Fo). rewrite Eo. cbn [rmap]. eexists. split; [reflexivity|]. constructor; [|exact Fo]. unfold mat_ok. rewrite (nth_error_nth _ _ _ E1), (nth_error_nth _ _ _ E3). unfold mi_dim. cbn [fst snd]. split; [apply repeat_length|].
    intros u i z k Hu Hi Hz Hk. rewrite nth_repeat. unfold half_term. rewrite !orb_true_iff, !Nat.eqb_eq in Z. unfold mi_dim, ir_dim in Z. cbn [fst snd] in Z. replace (ti_m2 o) with 0 by nia. cbn [rsum]. ring.
  - rewrite !orb_false_iff, !Nat.eqb_neq in Z. unfold mi_dim in Z. cbn [fst snd] in Z. destruct (nth (ti_2 o) c2 None) as [B|] eqn:EB; [|congruence]. unfold suits in So. rewrite M1, M2, M3 in So.
    destruct (right_value_ok (ti_mode o) (ti_hw o) m1 m2 mo (ir_dim a) (ir_dim c) w (half cg a b c (mat B)) prev Ro So ltac:(lia)) as (l & El & Ll & Vl). rewrite El. cbn [bind]. cbv zeta. rewrite map_length, Ll. unfold mi_dim. cbn [fst snd]. rewrite Nat.eqb_refl.
    destruct (IH ws' (Some (map (Rmult (ti_pw o)) l)) HC' HS' HR' HW' HN') as (outs & Eo & Fo). rewrite Eo. cbn [rmap]. eexists. split; [reflexivity|]. constructor; [|exact Fo]. unfold mat_ok. rewrite (nth_error_nth _ _ _ E1), (nth_error_nth _ _ _ E3). split; [rewrite map_length; exact Ll|].
    intros u i z k Hu Hi Hz Hk. rewrite nth_map0 by ring. rewrite Vl by assumption. unfold half_term. rewrite (nth_error_nth _ _ _ E1), (nth_error_nth _ _ _ E2), M1, M2, M3. cbn [snd]. f_equal. apply rsum_ext. intros v Hv. f_equal. unfold half. apply rsum_ext. intros j Hj. unfold Y. rewrite EB. reflexivity.
Qed.
(* the assembled matrix *)
Definition assembled (outs : list (list R)) : list (list R) :=
  flat_map (fun '(i1, m) =>
          beside (mi_dim m) (map (fun '(io, mo) => sum_mats (mi_dim m) (mi_dim mo)
            (map snd (filter (fun '(o, _) => (ti_1 o =? i1) && (ti_o o =? io)) (combine (tp_ins T) outs)))) (filter (fun '(_, mo) => 0 <? fst mo) (enumerate (tp_out T)))))
        (filter (fun '(_, m) => 0 <? fst m) (enumerate (tp_in1 T))).
Lemma picked ps outs i1 io m1 a mo c : nth_error x i1 = Some (m1, a) -> nth_error out io = Some (mo, c) -> Forall2 mat_ok ps outs ->
  Forall (fun v => length v = mi_dim (m1, a) * mi_dim (mo, c)) (map snd (filter (fun '(o, _) => (ti_1 o =? i1) && (ti_o o =? io)) (combine (map fst ps) outs))) /\
  forall u i z k, u < m1 -> i < ir_dim a -> z < mo -> k < ir_dim c ->
    lsum (map snd (filter (fun '(o, _) => (ti_1 o =? i1) && (ti_o o =? io)) (combine (map fst ps) outs))) (fun v => nth ((u * ir_dim a + i) * (mo * ir_dim c) + (z * ir_dim c + k)) v 0%R) =
    lsum ps (fun '(o, w) => if (ti_1 o =? i1) && (ti_o o =? io) then half_term c o w u i z k else 0%R).
Proof.
  intros E1 E3 F. induction F as [|[o w] l ps outs H F [IH1 IH2]]; [split; [constructor|reflexivity]|]. cbn [map fst combine filter]. destruct ((ti_1 o =? i1) && (ti_o o =? io)) eqn:B.
  - rewrite andb_true_iff, !Nat.eqb_eq in B. destruct B as [B1 B2]. unfold mat_ok in H. rewrite B1, B2, (nth_error_nth _ _ _ E1), (nth_error_nth _ _ _ E3) in H. destruct H as [Ll Vl]. cbn [map snd]. split; [constructor; [exact Ll|exact IH1]|].
    intros u i z k Hu Hi Hz Hk. rewrite !lsum_cons, B1, B2, !Nat.eqb_refl. cbn [andb]. rewrite Vl by assumption. f_equal. apply IH2; assumption.
  - split; [exact IH1|]. intros u i z k Hu Hi Hz Hk. rewrite lsum_cons, B, Rplus_0_l. apply IH2; assumption.
Qed.
Lemma beside_at h (ms : list (list (list R))) r : r < h -> nth r (beside h ms) [] = flat_map (fun m => nth r m []) ms.
Proof. intros H. unfold beside. change (map ?f (seq 0 h)) with (tab h f). rewrite nth_tab by exact H. reflexivity. Qed.
Lemma flat_map_map {A B C} (f : A -> B) (g : B -> list C) l : flat_map g (map f l) = flat_map (fun a => g (f a)) l.
Proof. induction l as [|a l IH]; [reflexivity|]. cbn [map flat_map]. rewrite IH. reflexivity. Qed.
Lemma assembled_at ps outs i1 m1 a io mo c u i z k : map fst ps = tp_ins T -> Forall2 mat_ok ps outs -> nth_error x i1 = Some (m1, a) -> nth_error out io = Some (mo, c) -> u < m1 -> i < ir_dim a -> z < mo -> k < ir_dim c ->
  mat_at (assembled outs) (dim (firstn i1 x) + (u * ir_dim a + i)) (dim (firstn io out) + (z * ir_dim c + k)) = lsum ps (fun '(o, w) => if (ti_1 o =? i1) && (ti_o o =? io) then half_term c o w u i z k else 0%R).
Proof.
  intros Ep F E1 E3 Hu Hi Hz Hk. unfold mat_at, assembled, enumerate. rewrite <- Ep. fold x out.
  set (B := fun i1 (m : mulirrep) io (mo : mulirrep) => sum_mats (mi_dim m) (mi_dim mo) (map snd (filter (fun '(o, _) => (ti_1 o =? i1) && (ti_o o =? io)) (combine (map fst ps) outs)))).
  assert (R1 : u * ir_dim a + i < mi_dim (m1, a)) by (unfold mi_dim; cbn [fst snd]; clear -Hu Hi; nia). assert (R2 : z * ir_dim c + k < mi_dim (mo, c)) by (unfold mi_dim; cbn [fst snd]; clear -Hz Hk; nia).
  rewrite (pieces_at [] x (fun i1 m => beside (mi_dim m) (map (fun '(io, mo) => B i1 m io mo) (filter (fun '(_, mo) => 0 <? fst mo) (combine (seq 0 (length out)) out)))) 0 i1 (m1, a)); [|intros; unfold beside; rewrite map_length; apply seq_length|exact E1|exact R1].
  cbn [Nat.add]. rewrite beside_at by exact R1. rewrite flat_map_map.
  rewrite (flat_map_ext _ (fun '(io, mo) => nth (u * ir_dim a + i) (B i1 (m1, a) io mo) [])) by (intros [io' mo']; reflexivity).
  rewrite (pieces_at 0%R out (fun io mo => nth (u * ir_dim a + i) (B i1 (m1, a) io mo) []) 0 io (mo, c)); [|intros io' [mo' c'] E'; cbn [Nat.add]|exact E3|exact R2].
  - cbn [Nat.add]. unfold B. destruct (picked ps outs i1 io m1 a mo c E1 E3 F) as [P1 P2]. rewrite sum_mats_at by assumption. rewrite <- P2 by assumption. reflexivity.
  - unfold B. destruct (picked ps outs i1 io' m1 a mo' c' E1 E' F) as [P1 _]. destruct (sum_mats_shape _ _ _ P1) as [S1 S2]. rewrite Forall_forall in S2. apply S2. apply nth_In. rewrite S1. exact R1.
Qed.
Lemma assembled_shape outs ps : map fst ps = tp_ins T -> Forall2 mat_ok ps outs -> length (assembled outs) = dim x.
Proof.
  intros Ep F. unfold assembled, enumerate. fold x out. apply (pieces_length x (fun i1 m => beside (mi_dim m) (map (fun '(io, mo) => sum_mats (mi_dim m) (mi_dim mo) (map snd (filter (fun '(o, _) => (ti_1 o =? i1) && (ti_o o =? io)) (combine (tp_ins T) outs)))) (filter (fun '(_, mo) => 0 <? fst mo) (combine (seq 0 (length out)) out)))) 0).
  intros k m _. unfold beside. rewrite map_length. apply seq_length.
Qed.
End Right.
