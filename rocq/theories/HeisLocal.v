(** * Sums of translates of local spin-1/2 operators on a periodic chain (C87) *)
From Coq Require Import ZArith Lia List Bool QArith Qcanon Setoid Morphisms Ncring Ncring_tac.
From Verif Require Import ExprModel ExprSpec ExprMap ExprEval ExprStd ExprMain ExprThrow ExprInst FockSpec
  ExprOrder PropExpr PropUnique PropHS PropFactories HeisModel HeisSum.
Import ListNotations.
Close Scope Qc_scope.
Close Scope Q_scope.
Open Scope Z_scope.
Open Scope list_scope.

(** the spin-1/2 generators of the sites 0, ..., W - 1 *)
Definition site_gens (W : nat) : list (gen Z) :=
  flat_map (fun i => [GSpin 2 Plus (Z.of_nat i); GSpin 2 Minus (Z.of_nat i); GSpin 2 Zcomp (Z.of_nat i)]) (seq 0 W).
Lemma site_gens_In W g : In g (site_gens W) <-> exists c i, g = GSpin 2 c i /\ 0 <= i < Z.of_nat W.
Proof.
  unfold site_gens. rewrite in_flat_map. split.
  - intros [i [h k]]. apply in_seq in h. destruct k as [k|[k|[k|[]]]]; subst g; eexists; eexists; (split; [reflexivity|lia]).
  - intros [c [i [-> h]]]. exists (Z.to_nat i). split; [apply in_seq; lia|]. rewrite Z2Nat.id by lia.
    destruct c; simpl; auto.
Qed.
Lemma site_gens_simple W : Forall simple (site_gens W).
Proof. apply Forall_forall. intros g h. apply site_gens_In in h. destruct h as [c [i [-> _]]]. reflexivity. Qed.
Notation KW W := (on_sites (map site_of (site_gens W))).
Lemma KW_spin W m c i : KW W (GSpin m c i) <-> m = 2%nat /\ 0 <= i < Z.of_nat W.
Proof.
  unfold on_sites. cbn [site_of simple]. rewrite in_map_iff. split.
  - intros [[g [E h]] ->]. apply site_gens_In in h. destruct h as [c' [j [-> hj]]]. cbn in E. injection E as ->. auto.
  - intros [-> h]. split; [|reflexivity]. exists (GSpin 2 c i). split; [reflexivity|]. apply site_gens_In. eauto.
Qed.
Lemma KW_f W d i : ~ KW W (GFermion d i).
Proof.
  intros [h _]. apply in_map_iff in h. destruct h as [g [E h]]. apply site_gens_In in h.
  destruct h as [c [j [-> _]]]. discriminate E.
Qed.
Lemma KW_b W d i : ~ KW W (GBoson d i).
Proof.
  intros [h _]. apply in_map_iff in h. destruct h as [g [E h]]. apply site_gens_In in h.
  destruct h as [c [j [-> _]]]. discriminate E.
Qed.

(** translations *)
Definition sh_gen (d : Z) (g : gen Z) : gen Z :=
  match g with GSpin m c i => GSpin m c (i + d) | _ => g end.
Definition sh_expr (d : Z) (e : expr_t) : expr_t := map (fun p => (map (sh_gen d) (fst p), snd p)) e.

(** all generators are spins 1/2 of the sites 0, ..., W - 1 *)
Definition in_window (W : nat) (g : gen Z) : bool :=
  match g with GSpin m _ i => Nat.eqb m 2 && Z.leb 0 i && Z.ltb i (Z.of_nat W) | _ => false end.
Definition okw (W : nat) (e : expr_t) : bool := forallb (fun p => forallb (in_window W) (fst p)) e.
Lemma in_window_spec W g : in_window W g = true <-> exists c i, g = GSpin 2 c i /\ 0 <= i < Z.of_nat W.
Proof.
  destruct g as [d i|d i|m c i]; cbn; split; try discriminate.
  - intros [c [j [E _]]]. discriminate E.
  - intros [c [j [E _]]]. discriminate E.
  - rewrite !andb_true_iff, Nat.eqb_eq, Z.leb_le, Z.ltb_lt. intros [[-> h] k]. exists c, i. auto.
  - intros [c' [j [E h]]]. injection E as -> -> ->. rewrite !andb_true_iff, Z.leb_le, Z.ltb_lt. repeat split; lia.
Qed.
Lemma okw_mono W W' e : (W <= W')%nat -> okw W e = true -> okw W' e = true.
Proof.
  intros hW. unfold okw. rewrite !forallb_forall. intros H p ip. specialize (H p ip).
  rewrite forallb_forall in *. intros g ig. specialize (H g ig). apply in_window_spec in H.
  destruct H as [c [i [-> h]]]. apply in_window_spec. exists c, i. split; [reflexivity|lia].
Qed.
Lemma okw_sh W d e : 0 <= d -> okw W e = true -> okw (W + Z.to_nat d) (sh_expr d e) = true.
Proof.
  intros hd. unfold okw, sh_expr. rewrite !forallb_forall. intros H p ip. apply in_map_iff in ip.
  destruct ip as [q [<- iq]]. specialize (H q iq). cbn [fst]. rewrite forallb_forall in *.
  intros g ig. apply in_map_iff in ig. destruct ig as [g' [<- ig]]. specialize (H g' ig).
  apply in_window_spec in H. destruct H as [c [i [-> h]]]. apply in_window_spec. exists c, (i + d).
  split; [reflexivity|lia].
Qed.
Lemma okw_P W e : okw W e = true -> Pexpr (adm (KW W) (site_gens W)) e.
Proof.
  intros H. unfold okw in H. rewrite forallb_forall in H. apply Forall_forall. intros p ip. specialize (H p ip).
  rewrite forallb_forall in H. apply Forall_forall. intros g ig. specialize (H g ig).
  apply in_window_spec in H. destruct H as [c [i [-> h]]]. split.
  - exists c. apply site_gens_In. exists c, i. auto.
  - apply KW_spin. auto.
Qed.

(** *** The check done by computation: the sum of the local commutators
    vanishes after every monomial has been moved to the left end of the chain *)
Definition g_site (g : gen Z) : Z := match g with GSpin _ _ i => i | GFermion _ i => i | GBoson _ i => i end.
Definition left_shift (m : list (gen Z)) : Z :=
  match m with [] => 0 | g :: t => fold_left Z.min (map g_site t) (g_site g) end.
Definition left_mono (m : list (gen Z)) : list (gen Z) := map (sh_gen (- left_shift m)) m.
Definition left_expr (e : expr_t) : expr_t :=
  fold_left (fun t p => add_entry hgo hso (left_mono (fst p), snd p) t) e [].
Fixpoint upto (f : Z -> res expr_t) (a : Z) (n : nat) : res expr_t :=
  match n with
  | O => Ok []
  | S k => rbind (upto f a k) (fun x => rbind (f (a + Z.of_nat k)) (fun y => Ok (e_add hgo hso x y)))
  end.
Definition density (a b : expr_t) (A Bn : nat) : res expr_t :=
  rbind (upto (fun d => comm a (sh_expr d b)) 0 A) (fun x =>
  rbind (upto (fun d => comm (sh_expr d a) b) 1 (Bn - 1)) (fun y => Ok (e_add hgo hso x y))).
Definition check (a b : expr_t) (A Bn : nat) : bool :=
  Nat.leb 1 A && Nat.leb 1 Bn && okw A a && okw Bn b &&
  match density a b A Bn with Ok e => match left_expr e with [] => true | _ => false end | _ => false end.

(** *** The same for one given (short) chain: rotations instead of translations *)
Definition rot_gen (N : nat) (d : Z) (g : gen Z) : gen Z :=
  match g with GSpin m c i => GSpin m c ((i + d) mod Z.of_nat N) | _ => g end.
Definition rot_expr (N : nat) (d : Z) (e : expr_t) : expr_t := map (fun p => (map (rot_gen N d) (fst p), snd p)) e.
Definition code (N : nat) (m : list (gen Z)) : Z :=
  fold_right (fun g a => a + match g with
    | GSpin _ c i => (match c with Plus => 1 | Minus => 2 | Zcomp => 3 end) * 4 ^ i | _ => 0 end) 0 m.
(** the rotation with the least code *)
Definition best_rot (N : nat) (m : list (gen Z)) : Z :=
  fst (fold_left (fun b d => let x := code N (map (rot_gen N (Z.of_nat d)) m) in
         if Z.ltb x (snd b) then (Z.of_nat d, x) else b) (seq 0 N) (0, code N m)).
Definition rot_left (N : nat) (e : expr_t) : res expr_t :=
  fold_left (fun r p => rbind r (normalize hgo hso (map (rot_gen N (best_rot N (fst p))) (fst p)) (snd p))) e (Ok []).
Definition check_cyc (N : nat) (a b : expr_t) : bool :=
  okw N a && okw N b &&
  match upto (fun d => comm a (rot_expr N d b)) 0 N with
  | Ok e => okw N e && match rot_left N e with Ok [] => true | _ => false end
  | _ => false end.

Section Ring.
Context {R : Type} (ro : ring_ops R) (Hr : is_ring ro) (inj : cx -> R) (rho : gen Z -> R).
Context (SI : scalar_image hso ro inj rho).
Context (N : nat) (HN : (1 <= N)%nat) (RL : relations_on (KW N) hso ro inj rho).
Local Instance opsI : @Ring_ops R (r0 ro) (r1 ro) (radd ro) (rmul ro) (rsub ro) (ropp ro) (req ro)
  := nc_ops ro.
Local Instance ringI : @Ring _ _ _ _ _ _ _ _ opsI := nc_ring ro Hr.
Local Instance eqI : Equivalence (req ro) := ri_equiv _ Hr.
Local Instance addI : Proper (req ro ==> req ro ==> req ro) (radd ro) := ri_add_ext _ Hr.
Local Instance mulI : Proper (req ro ==> req ro ==> req ro) (rmul ro) := ri_mul_ext _ Hr.
Local Instance oppI : Proper (req ro ==> req ro) (ropp ro) := ri_opp_ext _ Hr.
Notation "x == y" := (req ro x y) (at level 70).
Notation "x [+] y" := (radd ro x y) (at level 50, left associativity).
Notation "x [*] y" := (rmul ro x y) (at level 40, left associativity).
Notation "[-] x" := (ropp ro x) (at level 35, right associativity).
Ltac ncr := non_commutative_ring.

(** site k of the window that starts at site i *)
Definition wsite (i k : Z) : Z := (i + k) mod (Z.of_nat N).
Definition rhoi (i : Z) (g : gen Z) : R :=
  match g with GSpin m c k => rho (GSpin m c (wsite i k)) | _ => rho g end.
Definition ev (i : Z) (e : expr_t) : R := eval_expr ro inj (rhoi i) e.
Definition em (i : Z) (m : list (gen Z)) : R := eval_mono ro (rhoi i) m.

Lemma wsite_range i k : 0 <= wsite i k < Z.of_nat N.
Proof. apply Z.mod_pos_bound. lia. Qed.
Lemma wsite_inj i k i' k' : wsite i k = wsite i' k' -> - Z.of_nat N < (i + k) - (i' + k') < Z.of_nat N -> i + k = i' + k'.
Proof.
  unfold wsite. intros E h.
  pose proof (Z.div_mod (i + k) (Z.of_nat N) ltac:(lia)) as E1.
  pose proof (Z.div_mod (i' + k') (Z.of_nat N) ltac:(lia)) as E2.
  rewrite E in E1. set (q1 := (i + k) / Z.of_nat N) in *. set (q2 := (i' + k') / Z.of_nat N) in *.
  set (r := (i' + k') mod Z.of_nat N) in *. 
  assert (D : (i + k) - (i' + k') = Z.of_nat N * (q1 - q2)) by lia.
  assert (q1 - q2 = 0) by nia. nia.
Qed.
Lemma rhoi_shift i d g : rhoi i (sh_gen d g) = rhoi (i + d) g.
Proof. destruct g as [b k|b k|m c k]; cbn; auto. unfold wsite. now replace (i + (k + d)) with (i + d + k) by lia. Qed.
Lemma rhoi_period i g : rhoi (i + Z.of_nat N) g = rhoi i g.
Proof.
  destruct g as [b k|b k|m c k]; cbn; auto. unfold wsite.
  replace (i + Z.of_nat N + k) with (i + k + 1 * Z.of_nat N) by lia. now rewrite Z.mod_add by lia.
Qed.
Lemma em_shift i d m : em i (map (sh_gen d) m) = em (i + d) m.
Proof. unfold em. induction m as [|g m IH]; cbn [map eval_mono]; auto. now rewrite IH, rhoi_shift. Qed.
Lemma em_period i m : em (i + Z.of_nat N) m = em i m.
Proof. unfold em. induction m as [|g m IH]; cbn [map eval_mono]; auto. now rewrite IH, rhoi_period. Qed.
Lemma ev_shift i d e : ev i (sh_expr d e) = ev (i + d) e.
Proof.
  unfold ev. induction e as [|[m c] e IH]; cbn [sh_expr map eval_expr fst snd]; auto.
  unfold sh_expr in IH. rewrite IH. f_equal. f_equal. apply em_shift.
Qed.
Lemma ev_period i e : ev (i + Z.of_nat N) e = ev i e.
Proof. unfold ev. induction e as [|[m c] e IH]; cbn [eval_expr]; auto. rewrite IH. f_equal. f_equal. apply em_period. Qed.

Lemma SIi i : scalar_image hso ro inj (rhoi i).
Proof.
  constructor; [apply (si_0 _ _ _ _ SI)|apply (si_1 _ _ _ _ SI)|apply (si_add _ _ _ _ SI)|apply (si_mul _ _ _ _ SI)|].
  intros x g. destruct g; cbn; apply (si_comm _ _ _ _ SI).
Qed.
Lemma KN m c i : m = 2%nat -> KW N (GSpin m c (wsite i 0)).
Proof. intros ->. apply KW_spin. split; auto. apply wsite_range. Qed.
Lemma RLi W i : (W <= N)%nat -> relations_on (KW W) hso ro inj (rhoi i).
Proof.
  intros hW.
  assert (T : forall m c k, KW W (GSpin m c k) -> KW N (GSpin m c (wsite i k))).
  { intros m c k h. apply KW_spin in h. apply KW_spin. destruct h as [-> _]. split; auto. apply wsite_range. }
  constructor.
  - intros d k h. contradiction (KW_f _ _ _ h).
  - intros d d' k j h. contradiction (KW_f _ _ _ h).
  - intros k h. contradiction (KW_f _ _ _ h).
  - intros d k j h. contradiction (KW_b _ _ _ h).
  - intros k j h. contradiction (KW_b _ _ _ h).
  - intros k h. contradiction (KW_b _ _ _ h).
  - intros m m' c c' k j hk hj ne. cbn. apply (kr_s_comm _ _ _ _ _ RL); auto.
    apply KW_spin in hk. apply KW_spin in hj. destruct hk as [-> hk], hj as [-> hj].
    intros E. injection E as E. apply wsite_inj in E; [|lia]. apply ne. f_equal. lia.
  - intros m k h. cbn. apply (kr_s_pm _ _ _ _ _ RL); auto.
  - intros m k h. cbn. apply (kr_s_zp _ _ _ _ _ RL); auto.
  - intros m k h. cbn. apply (kr_s_zm _ _ _ _ _ RL); auto.
  - intros m k c h. cbn. apply (kr_s_nil _ _ _ _ _ RL); auto.
  - intros k x h. cbn. apply (kr_h_pm _ _ _ _ _ RL); auto.
  - intros k x h. cbn. apply (kr_h_pz _ _ _ _ _ RL); auto.
  - intros k x h. cbn. apply (kr_h_mz _ _ _ _ _ RL); auto.
  - intros k x h. cbn. apply (kr_h_zz _ _ _ _ _ RL); auto.
  - intros d k d' j h. contradiction (KW_f _ _ _ h).
  - intros d k m c j h. contradiction (KW_f _ _ _ h).
  - intros d k m c j h. contradiction (KW_b _ _ _ h).
Qed.

(** local commutators *)
Lemma comm_local W i a b c : (W <= N)%nat -> okw W a = true -> okw W b = true -> comm a b = Ok c ->
  ev i c == rcomm ro (ev i a) (ev i b).
Proof.
  intros hW Ha Hb E. unfold comm, minor in E.
  destruct (e_mul hgo hso a b) as [ab| |] eqn:E1; cbn [rbind] in E; try discriminate E.
  destruct (e_mul hgo hso b a) as [ba| |] eqn:E2; cbn [rbind] in E; try discriminate E.
  injection E as <-. apply okw_P in Ha. apply okw_P in Hb.
  pose proof (sound_on ioZ sto_Z hso cx_domain (site_gens W) (site_gens_simple W) ro inj (rhoi i) Hr (SIi i) (RLi W i hW)) as AS.
  pose proof (e_mul_sound hgo (std_order ioZ sto_Z) hso (sd_laws _ cx_domain) ro Hr inj (rhoi i) (SIi i) _ AS) as MS.
  unfold ev, rcomm.
  unfold e_sub. rewrite (ev_sub_assign hgo (std_order ioZ sto_Z) hso (sd_laws _ cx_domain) ro Hr inj (rhoi i) (SIi i) ab ba).
  rewrite (MS _ _ _ Ha Hb E1), (MS _ _ _ Hb Ha E2). reflexivity.
Qed.

(** operators on disjoint windows commute *)
Lemma mono_commute i j m1 m2 :
  (forall g h, In g m1 -> In h m2 -> rhoi i g [*] rhoi j h == rhoi j h [*] rhoi i g) ->
  em i m1 [*] em j m2 == em j m2 [*] em i m1.
Proof.
  intros H. unfold em. induction m1 as [|g m1 IH]; cbn [eval_mono]; [ncr|].
  assert (G : rhoi i g [*] eval_mono ro (rhoi j) m2 == eval_mono ro (rhoi j) m2 [*] rhoi i g).
  { assert (H' : forall h, In h m2 -> rhoi i g [*] rhoi j h == rhoi j h [*] rhoi i g) by (intros h ih; apply H; [now left|auto]).
    clear - H' Hr. induction m2 as [|h m2 IH]; cbn [eval_mono]; [ncr|].
    transitivity ((rhoi i g [*] rhoi j h) [*] eval_mono ro (rhoi j) m2); [ncr|]. rewrite (H' h) by now left.
    transitivity (rhoi j h [*] (rhoi i g [*] eval_mono ro (rhoi j) m2)); [ncr|].
    rewrite IH by (intros; apply H'; now right). ncr. }
  transitivity (rhoi i g [*] (eval_mono ro (rhoi i) m1 [*] eval_mono ro (rhoi j) m2)); [ncr|].
  rewrite IH by (intros; apply H; [now right|auto]).
  transitivity ((rhoi i g [*] eval_mono ro (rhoi j) m2) [*] eval_mono ro (rhoi i) m1); [ncr|].
  rewrite G. ncr.
Qed.
Lemma inj_comm x y : inj x [*] inj y == inj y [*] inj x.
Proof.
  rewrite <- !(si_mul _ _ _ _ SI). assert (E : s_mul hso x y = s_mul hso y x).
  { destruct x as [a b], y as [c d]. cbn. f_equal; ring. }
  now rewrite E. Qed.
Lemma far A Bn a b i d : okw A a = true -> okw Bn b = true -> Z.of_nat A <= d -> d + Z.of_nat Bn <= Z.of_nat N ->
  rcomm ro (ev i a) (ev (i + d) b) == r0 ro.
Proof.
  intros Ha Hb h1 h2. unfold okw in *. rewrite forallb_forall in *.
  assert (MC : forall p q, In p a -> In q b -> em i (fst p) [*] em (i + d) (fst q) == em (i + d) (fst q) [*] em i (fst p)).
  { intros p q ip iq. apply mono_commute. intros g h ig ih.
    specialize (Ha p ip). specialize (Hb q iq). rewrite forallb_forall in Ha, Hb.
    specialize (Ha g ig). specialize (Hb h ih). apply in_window_spec in Ha. apply in_window_spec in Hb.
    destruct Ha as [c [k [-> hk]]], Hb as [c' [l [-> hl]]]. cbn. apply (kr_s_comm _ _ _ _ _ RL).
    - apply KW_spin. split; auto. apply wsite_range.
    - apply KW_spin. split; auto. apply wsite_range.
    - intros E. injection E as E. apply wsite_inj in E; lia. }
  assert (EC : ev i a [*] ev (i + d) b == ev (i + d) b [*] ev i a).
  { clear Ha Hb. unfold ev. induction a as [|[m c] a IH]; cbn [eval_expr]; [ncr|].
    rewrite (ri_dist_r _ Hr), (ri_dist_l _ Hr).
    rewrite IH by (intros p q ip iq; apply MC; [now right|auto]).
    assert (Q : inj c [*] em i m [*] eval_expr ro inj (rhoi (i + d)) b == eval_expr ro inj (rhoi (i + d)) b [*] (inj c [*] em i m)).
    { clear IH. assert (MC' : forall q, In q b -> em i m [*] em (i + d) (fst q) == em (i + d) (fst q) [*] em i m)
        by (intros q iq; apply (MC (m, c) q); [now left|auto]).
      clear MC. induction b as [|[n x] b IHb]; cbn [eval_expr]; [ncr|].
      rewrite (ri_dist_l _ Hr), (ri_dist_r _ Hr). rewrite IHb by (intros q iq; apply MC'; now right).
      apply (ri_add_ext _ Hr); [|reflexivity]. fold (em (i + d) n).
      pose proof (inj_comm_em hso ro Hr inj (rhoi i) (SIi i) m x) as C1. fold (em i m) in C1.
      pose proof (inj_comm_em hso ro Hr inj (rhoi (i + d)) (SIi (i + d)) n c) as C2. fold (em (i + d) n) in C2.
      transitivity (inj c [*] (em i m [*] inj x) [*] em (i + d) n); [ncr|]. rewrite C1.
      transitivity ((inj c [*] inj x) [*] (em i m [*] em (i + d) n)); [ncr|]. rewrite inj_comm.
      rewrite (MC' (n, x)) by now left. cbn [fst].
      transitivity (inj x [*] (inj c [*] em (i + d) n) [*] em i m); [ncr|]. rewrite <- C2. ncr. }
    fold (em i m). rewrite Q. reflexivity. }
  unfold rcomm. rewrite EC. ncr.
Qed.

Lemma csum_left m : csum ro N (fun i => em i m) == csum ro N (fun i => em i (left_mono m)).
Proof.
  unfold left_mono. rewrite <- (csum_shift ro Hr N (fun i => em i m) (- left_shift m)).
  - unfold csum. apply (zsum_ext ro Hr). intros i _. rewrite em_shift. reflexivity.
  - intros i. rewrite em_period. reflexivity.
Qed.
Lemma csum_left_expr e : forall t,
  csum ro N (fun i => ev i (fold_left (fun t p => add_entry hgo hso (left_mono (fst p), snd p) t) e t)) ==
  csum ro N (fun i => ev i e) [+] csum ro N (fun i => ev i t).
Proof.
  induction e as [|[m c] e IH]; intros t; cbn [fold_left fst snd].
  - assert (Z0 : csum ro N (fun i => ev i []) == r0 ro) by (apply (zsum_0 ro Hr); reflexivity). rewrite Z0. ncr.
  - rewrite IH.
    assert (E1 : csum ro N (fun i => ev i (add_entry hgo hso (left_mono m, c) t)) ==
                 inj c [*] csum ro N (fun i => em i (left_mono m)) [+] csum ro N (fun i => ev i t)).
    { unfold csum. rewrite <- (zsum_mul_l ro Hr), <- (zsum_add ro Hr). apply (zsum_ext ro Hr). intros i _.
      apply (ev_ins hgo (std_order ioZ sto_Z) hso (sd_laws _ cx_domain) ro Hr inj (rhoi i) (SIi i)). }
    assert (E2 : csum ro N (fun i => ev i ((m, c) :: e)) ==
                 inj c [*] csum ro N (fun i => em i m) [+] csum ro N (fun i => ev i e)).
    { unfold csum. rewrite <- (zsum_mul_l ro Hr), <- (zsum_add ro Hr). apply (zsum_ext ro Hr). intros i _. reflexivity. }
    rewrite E1, E2, (csum_left m). ncr.
Qed.

Lemma upto_value (f : Z -> res expr_t) (F : Z -> Z -> R) a n e :
  (forall i d c, a <= d < a + Z.of_nat n -> f d = Ok c -> ev i c == F i d) ->
  upto f a n = Ok e -> forall i, ev i e == zsum ro (F i) a n.
Proof.
  revert e. induction n as [|n IH]; intros e H E i; cbn [upto] in E.
  - injection E as <-. reflexivity.
  - destruct (upto f a n) as [x| |] eqn:E1; cbn [rbind] in E; try discriminate E.
    destruct (f (a + Z.of_nat n)) as [y| |] eqn:E2; cbn [rbind] in E; try discriminate E.
    injection E as <-. cbn [zsum].
    unfold ev, e_add. rewrite (ev_add_assign hgo (std_order ioZ sto_Z) hso (sd_laws _ cx_domain) ro Hr inj (rhoi i) (SIi i)).
    fold (ev i x). fold (ev i y). assert (Hx : ev i x == zsum ro (F i) a n).
    { apply IH; [|reflexivity]. intros i' d c hd. apply H. lia. }
    rewrite Hx.
    rewrite (H i (a + Z.of_nat n) y ltac:(lia) E2). reflexivity.
Qed.

(** the sums of the translates of [a] and [b] commute *)
Theorem check_commute a b A Bn : check a b A Bn = true -> (A + Bn - 1 <= N)%nat ->
  rcomm ro (csum ro N (fun i => ev i a)) (csum ro N (fun i => ev i b)) == r0 ro.
Proof.
  intros CH hW. unfold check in CH. apply andb_true_iff in CH. destruct CH as [CH C].
  apply andb_true_iff in CH. destruct CH as [CH Hb]. apply andb_true_iff in CH. destruct CH as [CH Ha].
  apply andb_true_iff in CH. destruct CH as [HA HB]. apply Nat.leb_le in HA. apply Nat.leb_le in HB.
  destruct (density a b A Bn) as [e| |] eqn:E; try discriminate C.
  destruct (left_expr e) as [|? ?] eqn:El; try discriminate C. clear C.
  rewrite (comm_csum ro Hr N (fun i => ev i a) (fun i => ev i b) A Bn).
  2:{ intros i. rewrite ev_period. reflexivity. }
  2:{ intros i. rewrite ev_period. reflexivity. }
  2:exact HA. 2:exact HB. 2:exact hW.
  2:{ intros i d h1 h2. exact (far A Bn a b i d Ha Hb h1 h2). }
  transitivity (csum ro N (fun i => ev i e)).
  - unfold density in E.
    destruct (upto (fun d => comm a (sh_expr d b)) 0 A) as [x| |] eqn:E1; cbn [rbind] in E; try discriminate E.
    destruct (upto (fun d => comm (sh_expr d a) b) 1 (Bn - 1)) as [y| |] eqn:E2; cbn [rbind] in E; try discriminate E.
    injection E as <-. unfold csum. apply (zsum_ext ro Hr). intros i _. symmetry.
    unfold ev at 1. unfold e_add.
    rewrite (ev_add_assign hgo (std_order ioZ sto_Z) hso (sd_laws _ cx_domain) ro Hr inj (rhoi i) (SIi i)).
    fold (ev i x). fold (ev i y).
    assert (V1 : forall i, ev i x == zsum ro (fun d => rcomm ro (ev i a) (ev (i + d) b)) 0 A).
    { apply (upto_value (fun d => comm a (sh_expr d b)) (fun i d => rcomm ro (ev i a) (ev (i + d) b)) 0 A x); [|exact E1].
      intros i' d c hd Ec.
      assert (K : ev i' c == rcomm ro (ev i' a) (ev i' (sh_expr d b))).
      { apply (comm_local (A + Bn - 1) i' _ _ _ hW).
        - apply (okw_mono A); [lia|exact Ha].
        - apply (okw_mono (Bn + Z.to_nat d)); [lia|]. apply okw_sh; [lia|exact Hb].
        - exact Ec. }
      rewrite ev_shift in K. exact K. }
    assert (V2 : forall i, ev i y == zsum ro (fun d => rcomm ro (ev (i + d) a) (ev i b)) 1 (Bn - 1)).
    { apply (upto_value (fun d => comm (sh_expr d a) b) (fun i d => rcomm ro (ev (i + d) a) (ev i b)) 1 (Bn - 1) y); [|exact E2].
      intros i' d c hd Ec.
      assert (K : ev i' c == rcomm ro (ev i' (sh_expr d a)) (ev i' b)).
      { apply (comm_local (A + Bn - 1) i' _ _ _ hW).
        - apply (okw_mono (A + Z.to_nat d)); [lia|]. apply okw_sh; [lia|exact Ha].
        - apply (okw_mono Bn); [lia|exact Hb].
        - exact Ec. }
      rewrite ev_shift in K. exact K. }
    rewrite (V1 i), (V2 i). reflexivity.
  - pose proof (csum_left_expr e []) as K. unfold left_expr in El. rewrite El in K.
    assert (Z0 : csum ro N (fun i => ev i []) == r0 ro) by (apply (zsum_0 ro Hr); reflexivity).
    transitivity (csum ro N (fun i => ev i e) [+] r0 ro); [ncr|].
    rewrite <- Z0 at 1. rewrite <- K. exact Z0.
Qed.

(** *** short chains *)
Lemma rhoi_rot i d g : rhoi i (rot_gen N d g) = rhoi (i + d) g.
Proof.
  destruct g as [b k|b k|m c k]; cbn; auto. unfold wsite. rewrite Zplus_mod_idemp_r.
  now replace (i + (k + d)) with (i + d + k) by lia.
Qed.
Lemma em_rot i d m : em i (map (rot_gen N d) m) = em (i + d) m.
Proof. unfold em. induction m as [|g m IH]; cbn [map eval_mono]; auto. now rewrite IH, rhoi_rot. Qed.
Lemma ev_rot i d e : ev i (rot_expr N d e) = ev (i + d) e.
Proof.
  unfold ev. induction e as [|[m c] e IH]; cbn [rot_expr map eval_expr fst snd]; auto.
  unfold rot_expr in IH. rewrite IH. f_equal. f_equal. apply em_rot.
Qed.
Lemma rot_window d m : forallb (in_window N) m = true -> forallb (in_window N) (map (rot_gen N d) m) = true.
Proof.
  rewrite !forallb_forall. intros H g ig. apply in_map_iff in ig. destruct ig as [g' [<- ig]].
  specialize (H g' ig). apply in_window_spec in H. destruct H as [c [k [-> h]]]. apply in_window_spec.
  exists c, ((k + d) mod Z.of_nat N). split; [reflexivity|]. apply Z.mod_pos_bound. lia.
Qed.
Lemma okw_rot d e : okw N e = true -> okw N (rot_expr N d e) = true.
Proof.
  unfold okw, rot_expr. intros H. apply forallb_forall. intros p ip. apply in_map_iff in ip.
  destruct ip as [q [<- iq]]. cbn [fst]. apply rot_window. rewrite forallb_forall in H. auto.
Qed.
Lemma rot_left_value e : okw N e = true -> forall t t',
  fold_left (fun r p => rbind r (normalize hgo hso (map (rot_gen N (best_rot N (fst p))) (fst p)) (snd p))) e (Ok t) = Ok t' ->
  csum ro N (fun i => ev i t') == csum ro N (fun i => ev i e) [+] csum ro N (fun i => ev i t).
Proof.
  induction e as [|[m c] e IH]; intros OK t t' E; cbn [fold_left fst snd rbind] in E.
  - injection E as <-. assert (Z0 : csum ro N (fun i => ev i []) == r0 ro) by (apply (zsum_0 ro Hr); reflexivity). rewrite Z0. ncr.
  - cbn in OK. apply andb_true_iff in OK. destruct OK as [Om Oe].
    set (r := best_rot N m) in *.
    destruct (normalize hgo hso (map (rot_gen N r) m) c t) as [t1| |] eqn:E1.
    + rewrite (IH Oe t1 t' E). clear IH E.
      assert (V : forall i, ev i t1 == inj c [*] em (i + r) m [+] ev i t).
      { intros i. rewrite <- em_rot.
        apply (normalize_sound hgo (std_order ioZ sto_Z) hso (sd_laws _ cx_domain) ro Hr inj (rhoi i) (SIi i)
          (adm (KW N) (site_gens N))
          (sound_on ioZ sto_Z hso cx_domain (site_gens N) (site_gens_simple N) ro inj (rhoi i) Hr (SIi i) (RLi N i (le_n N)))).
        - assert (P1 : okw N [(map (rot_gen N r) m, c)] = true) by (cbn [okw forallb fst]; rewrite (rot_window r m Om); reflexivity).
          apply okw_P in P1. inversion P1; assumption.
        - exact E1. }
      assert (E2 : csum ro N (fun i => ev i t1) == inj c [*] csum ro N (fun i => em i m) [+] csum ro N (fun i => ev i t)).
      { rewrite <- (csum_shift ro Hr N (fun i => em i m) r) by (intros i; rewrite em_period; reflexivity).
        unfold csum. rewrite <- (zsum_mul_l ro Hr), <- (zsum_add ro Hr). apply (zsum_ext ro Hr). intros i _. apply V. }
      assert (E3 : csum ro N (fun i => ev i ((m, c) :: e)) ==
                   inj c [*] csum ro N (fun i => em i m) [+] csum ro N (fun i => ev i e)).
      { unfold csum. rewrite <- (zsum_mul_l ro Hr), <- (zsum_add ro Hr). apply (zsum_ext ro Hr). intros i _. reflexivity. }
      rewrite E2, E3. ncr.
    + exfalso. clear - E. induction e as [|p e IH]; cbn in E; [discriminate E|auto].
    + exfalso. clear - E. induction e as [|p e IH]; cbn in E; [discriminate E|auto].
Qed.
Theorem check_cyc_commute a b : check_cyc N a b = true ->
  rcomm ro (csum ro N (fun i => ev i a)) (csum ro N (fun i => ev i b)) == r0 ro.
Proof.
  intros CH. unfold check_cyc in CH. apply andb_true_iff in CH. destruct CH as [CH C].
  apply andb_true_iff in CH. destruct CH as [Ha Hb].
  destruct (upto (fun d => comm a (rot_expr N d b)) 0 N) as [e| |] eqn:E; try discriminate C.
  apply andb_true_iff in C. destruct C as [Oe C].
  destruct (rot_left N e) as [l| |] eqn:El; try discriminate C. destruct l as [|? ?]; try discriminate C. clear C.
  rewrite (comm_csum ro Hr N (fun i => ev i a) (fun i => ev i b) N 1).
  2:{ intros i. rewrite ev_period. reflexivity. }
  2:{ intros i. rewrite ev_period. reflexivity. }
  2:exact HN. 2:lia. 2:lia. 2:{ intros i d h1 h2. lia. }
  transitivity (csum ro N (fun i => ev i e)).
  - unfold csum at 1 2. apply (zsum_ext ro Hr). intros i _. symmetry.
    assert (V1 : forall i, ev i e == zsum ro (fun d => rcomm ro (ev i a) (ev (i + d) b)) 0 N).
    { apply (upto_value (fun d => comm a (rot_expr N d b)) (fun i d => rcomm ro (ev i a) (ev (i + d) b)) 0 N e); [|exact E].
      intros i' d c hd Ec.
      assert (K : ev i' c == rcomm ro (ev i' a) (ev i' (rot_expr N d b))).
      { apply (comm_local N i' _ _ _ (le_n N)); [exact Ha|apply okw_rot; exact Hb|exact Ec]. }
      rewrite ev_rot in K. exact K. }
    rewrite (V1 i). cbn [Nat.sub zsum]. ncr.
  - pose proof (rot_left_value e Oe [] [] El) as K.
    assert (Z0 : csum ro N (fun i => ev i []) == r0 ro) by (apply (zsum_0 ro Hr); reflexivity).
    transitivity (csum ro N (fun i => ev i e) [+] r0 ro); [ncr|].
    rewrite <- Z0 at 1. rewrite <- K. exact Z0.
Qed.
End Ring.
