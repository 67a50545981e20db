(** Proofs about the filling of the data array from the parsed CSV text. *)
From Coq Require Import ZArith List Bool Lia.
From Verif Require Import Base CsvTokModel CsvTokSpec CsvTokProofs.
Import ListNotations.
Local Open Scope Z_scope.

Lemma update_some {T} n (v : T) l : (n < length l)%nat -> exists l', update n v l = Some l'.
Proof.
  revert n. induction l as [|x l IH]; intros n H; cbn in H; [lia|]. destruct n as [|n]; cbn [update]; eauto.
  destruct (IH n ltac:(lia)) as [l' ->]. cbn. eauto.
Qed.
Lemma update_spec {T} n (v : T) l l' : update n v l = Some l' ->
  length l' = length l /\ nth_error l' n = Some v /\ forall p, p <> n -> nth_error l' p = nth_error l p.
Proof.
  revert n l'. induction l as [|x l IH]; intros [|n] l' E; cbn [update] in E; try discriminate.
  - injection E as <-. split; [auto|]. split; [auto|]. intros [|p] H; [congruence|auto].
  - destruct (update n v l) as [k|] eqn:U; [|discriminate]. injection E as <-.
    destruct (IH n k U) as (A & B & C). cbn. split; [lia|]. split; [auto|].
    intros [|p] H; auto. cbn. apply C. congruence.
Qed.

Lemma cell_lt rm nr nc i j : (i < nr)%nat -> (j < nc)%nat -> (cell rm nr nc i j < nr * nc)%nat.
Proof. intros Hi Hj. unfold cell. destruct rm; nia. Qed.
Lemma cell_inj rm nr nc i j i' j' : (i < nr)%nat -> (j < nc)%nat -> (i' < nr)%nat -> (j' < nc)%nat ->
  cell rm nr nc i j = cell rm nr nc i' j' -> i = i' /\ j = j'.
Proof.
  intros H1 H2 H3 H4 E. unfold cell in E. destruct rm.
  - assert (i = i') by nia. subst. lia.
  - assert (j = j') by nia. subst. lia.
Qed.

Section Fill.
Variable T : Type.
Variable conv : list Z -> option T.
Variable missing : T.
Variables warn rm : bool.
Notation val w := (match conv (cstr w) with Some v => v | None => missing end).
Notation fill_line := (fill_line T conv missing warn rm).
Notation fill := (fill T conv missing warn rm).

(** The words of one line. *)
Lemma fill_line_spec (ws : list (list Z)) (i : nat) (first : Z) nr nc start (r : list text) :
  (i < nr)%nat -> 0 <= start ->
  (forall x w, nth_error r x = Some w -> nth_error ws (Z.to_nat start + x) = Some w) ->
  length r = nc -> forall k j st a,
  (j + k = nc)%nat -> length a = (nr * nc)%nat ->
  match fill_line ws (Z.of_nat i + first) first (Z.of_nat nr + first) (Z.of_nat nc) start (start + Z.of_nat j) k st a with
  | Populated st' a' _ _ =>
      length a' = length a /\
      (forall x w, (j <= x)%nat -> nth_error r x = Some w -> nth_error a' (cell rm nr nc i x) = Some (val w)) /\
      (forall p, (forall x, (x < nc)%nat -> p <> cell rm nr nc i x) -> nth_error a' p = nth_error a p) /\
      (forall x, (x < j)%nat -> nth_error a' (cell rm nr nc i x) = nth_error a (cell rm nr nc i x)) /\
      (warn = false -> forall w, In w (skipn j r) -> conv (cstr w) <> None) /\
      (st' = st /\ (forall w, In w (skipn j r) -> conv (cstr w) <> None) \/
       st' = st_missing_data /\ exists w, In w (skipn j r) /\ conv (cstr w) = None)
  | Refused => warn = false /\ exists w, In w r /\ conv (cstr w) = None
  | NoData _ | BadAccess => False
  end.
Proof.
  intros Hi Hs Hw Hr. induction k as [|k IH]; intros j st a Hj Ha; cbn [CsvTokModel.fill_line].
  - assert (E : skipn j r = []) by (apply skipn_all2; lia). rewrite E.
    split; [auto|]. split.
    { intros x w Hx Hn. exfalso. assert (nth_error r x <> None) by congruence.
      apply nth_error_Some in H. lia. }
    split; [auto|]. split; [auto|]. split; [intros _ w []|]. left. split; [auto|intros w []].
  - destruct (Z.ltb_spec (start + Z.of_nat j) 0); [lia|].
    assert (J : (j < length r)%nat) by lia.
    destruct (nth_error r j) as [w|] eqn:Ew; [|apply nth_error_None in Ew; lia].
    assert (Sk : skipn j r = w :: skipn (S j) r).
    { clear -Ew. revert r Ew. induction j as [|j IH]; intros [|y r] E; try discriminate E.
      - injection E as ->. auto.
      - cbn [skipn]. rewrite (IH r E). destruct r; auto. }
    replace (nth_error ws (Z.to_nat (start + Z.of_nat j))) with (Some w).
    2:{ symmetry. replace (Z.to_nat (start + Z.of_nat j)) with (Z.to_nat start + j)%nat by lia. apply Hw. auto. }
    set (index := if rm then _ else _).
    assert (Ei : index = Z.of_nat (cell rm nr nc i j)).
    { unfold index, cell. destruct rm; rewrite Nat2Z.inj_add, Nat2Z.inj_mul; nia. }
    rewrite Ei. rewrite Nat2Z.id. destruct (Z.ltb_spec (Z.of_nat (cell rm nr nc i j)) 0); [lia|].
    pose proof (cell_lt rm nr nc i j Hi ltac:(lia)) as CL.
    assert (Rest : forall v st1, v = val w ->
      (conv (cstr w) <> None /\ st1 = st \/ conv (cstr w) = None /\ st1 = st_missing_data /\ warn = true) ->
      match match update (cell rm nr nc i j) v a with
            | Some a' => fill_line ws (Z.of_nat i + first) first (Z.of_nat nr + first) (Z.of_nat nc) start
                           (start + Z.of_nat j + 1) k st1 a'
            | None => BadAccess
            end with
      | Populated st' a' _ _ =>
          length a' = length a /\
          (forall x w, (j <= x)%nat -> nth_error r x = Some w -> nth_error a' (cell rm nr nc i x) = Some (val w)) /\
          (forall p, (forall x, (x < nc)%nat -> p <> cell rm nr nc i x) -> nth_error a' p = nth_error a p) /\
          (forall x, (x < j)%nat -> nth_error a' (cell rm nr nc i x) = nth_error a (cell rm nr nc i x)) /\
          (warn = false -> forall w, In w (skipn j r) -> conv (cstr w) <> None) /\
          (st' = st /\ (forall w, In w (skipn j r) -> conv (cstr w) <> None) \/
           st' = st_missing_data /\ exists w, In w (skipn j r) /\ conv (cstr w) = None)
      | Refused => warn = false /\ exists w, In w r /\ conv (cstr w) = None
      | NoData _ | BadAccess => False
      end).
    { intros v st1 Ev Hst. destruct (update_some (cell rm nr nc i j) v a ltac:(lia)) as [a1 U]. rewrite U.
      destruct (update_spec _ _ _ _ U) as (U1 & U2 & U3).
      replace (start + Z.of_nat j + 1) with (start + Z.of_nat (S j)) by lia.
      specialize (IH (S j) st1 a1 ltac:(lia) ltac:(congruence)).
      destruct (fill_line _ _ _ _ _ _ _ _ _ _) as [st' a' u1 u2| | |]; auto.
      destruct IH as (I1 & I2 & I3 & I4 & I5 & I6).
      split; [congruence|]. split; [|split; [|split; [|split]]].
      - intros x y Hx Hn. destruct (Nat.eq_dec x j) as [-> |N]; [|apply I2; auto; lia].
        rewrite I4, U2 by lia. assert (y = w) by congruence. subst y. rewrite Ev. auto.
      - intros p Hp. rewrite I3 by auto. apply U3. apply Hp. lia.
      - intros x Hx. rewrite I4 by lia. apply U3. intros E.
        apply cell_inj in E; lia.
      - intros Wf y Hy. rewrite Sk in Hy. destruct Hy as [<- |Hy]; [|auto].
        destruct Hst as [[? _]|(_ & _ & ?)]; [auto|congruence].
      - rewrite Sk. destruct Hst as [[Cw ->]|(Cw & -> & _)].
        + destruct I6 as [[-> A]|[-> (y & A1 & A2)]].
          * left. split; auto. intros y [<- |Hy]; auto.
          * right. split; auto. exists y. split; auto. right. auto.
        + right. split; [destruct I6 as [[? _]|[? _]]; auto|]. exists w. split; [left|]; auto. }
    destruct (conv (cstr w)) as [v|] eqn:Cv; [|destruct warn eqn:Wn].
    + apply Rest; [reflexivity|]. left. split; [discriminate|auto].
    + apply Rest; [reflexivity|]. auto.
    + split; auto. exists w. split; auto. eapply nth_error_In; eauto.
Qed.

(** All lines. *)
Lemma fill_spec (ws : list (list Z)) (first : Z) nr nc st0 : forall P i start st a pre extra,
  ws = pre ++ concat P ++ extra -> start = len pre -> (i + length P = nr)%nat ->
  length a = (nr * nc)%nat -> (st = st0 \/ st = st_missing_data) ->
  match fill ws (index start P) (Z.of_nat i + first) first (Z.of_nat nr + first) (Z.of_nat nc) st a with
  | Populated st' a' nr' nc' =>
      nr' = Z.of_nat nr /\ nc' = Z.of_nat nc /\ length a' = length a /\ rectangular nc P /\
      (forall x y r w, nth_error P x = Some r -> nth_error r y = Some w ->
         nth_error a' (cell rm nr nc (i + x) y) = Some (val w)) /\
      (forall x y, (x < i)%nat -> (y < nc)%nat -> nth_error a' (cell rm nr nc x y) = nth_error a (cell rm nr nc x y)) /\
      (warn = false -> converts conv P) /\
      (st' = st /\ converts conv P \/ st' = st_missing_data /\ ~ converts conv P)
  | Refused => ~ rectangular nc P \/ warn = false /\ ~ converts conv P
  | NoData _ | BadAccess => False
  end.
Proof.
  induction P as [|r P IH]; intros i start st a pre extra Ews Est Ei Ha Hst; cbn [index CsvTokModel.fill].
  - split; [lia|]. split; [auto|]. split; [auto|]. split; [constructor|].
    split; [intros x y r w H; destruct x; discriminate|]. split; [auto|].
    assert (C : converts conv (@nil (list text))) by (intros r w []). split; auto.
  - destruct (Z.eqb_spec (len r) (Z.of_nat nc)) as [Lr|Lr]; cbn [negb].
    2:{ left. intros F. inversion F. lia. }
    apply Nat2Z.inj in Lr. rewrite Nat2Z.id.
    cbn [length] in Ei. subst start.
    pose proof (fill_line_spec ws i first nr nc (len pre) r ltac:(lia) ltac:(lia)) as L.
    assert (Hw : forall x w, nth_error r x = Some w -> nth_error ws (Z.to_nat (len pre) + x) = Some w).
    { intros x w Hx. rewrite Nat2Z.id, Ews, nth_error_app2 by lia.
      replace (length pre + x - length pre)%nat with x by lia. cbn [concat].
      rewrite <- app_assoc, nth_error_app1; auto. apply nth_error_Some. congruence. }
    specialize (L Hw Lr (length r) 0%nat st a ltac:(lia) Ha). cbn [Z.of_nat] in L. rewrite Z.add_0_r in L.
    destruct (fill_line _ _ _ _ _ _ _ _ _ _) as [st1 a1 u1 u2| | |]; auto.
    2:{ destruct L as (Wf & w & L1 & L2). right. split; auto. intros C. apply (C r w); auto. left; auto. }
    destruct L as (L1 & L2 & L3 & L4 & L5 & L6). cbn [skipn] in L5, L6.
    specialize (IH (S i) (len pre + len r) st1 a1 (pre ++ r) extra).
    replace (Z.of_nat (S i) + first) with (Z.of_nat i + first + 1) in IH by lia.
    specialize (IH ltac:(rewrite Ews; cbn [concat]; rewrite <- !app_assoc; auto)
                   ltac:(rewrite app_length; lia) ltac:(lia) ltac:(congruence)).
    specialize (IH ltac:(destruct L6 as [[-> _]|[-> _]]; auto)).
    destruct (fill _ _ _ _ _ _ _ _) as [st' a' nr' nc'| | |]; auto.
    + destruct IH as (I1 & I2 & I3 & I4 & I5 & I6 & I7 & I8).
      split; [auto|]. split; [auto|]. split; [congruence|]. split; [constructor; auto|].
      split; [|split; [|split]].
      * intros x y q w Hx Hy. destruct x as [|x]; cbn [nth_error] in Hx.
        -- injection Hx as <-. rewrite Nat.add_0_r. rewrite I6; [|lia|].
           ++ apply L2; auto. lia.
           ++ rewrite <- Lr. apply nth_error_Some. congruence.
        -- replace (i + S x)%nat with (S i + x)%nat by lia. eapply I5; eauto.
      * intros x y Hx Hy. rewrite I6 by lia. apply L3. intros z Hz E. apply cell_inj in E; lia.
      * intros Wf q w [<- |Hq] Hw'; [apply L5; auto|apply (I7 Wf q w); auto].
      * destruct L6 as [[-> A]|[-> (w & A1 & A2)]].
        -- destruct I8 as [[-> B]|[-> B]].
           ++ left. split; auto. intros q w [<- |Hq] Hw'; [auto|apply (B q w); auto].
           ++ right. split; auto. intros C. apply B. intros q w Hq Hw'. apply (C q w); auto. right; auto.
        -- right. split; [destruct I8 as [[-> _]|[-> _]]; auto|]. intros C. apply (C r w); auto. left; auto.
    + destruct IH as [N|[Wf N]].
      * left. intros F. apply N. inversion F; auto.
      * right. split; auto. intros C. apply N. intros q w Hq Hw'. apply (C q w); auto. right; auto.
Qed.
End Fill.

(** ** The whole array *)
Lemma index_skipn P : forall n start, skipn n (index start P) = index (start + len (concat (firstn n P))) (skipn n P).
Proof.
  induction P as [|r P IH]; intros [|n] start; cbn [index skipn firstn concat length].
  - auto.
  - auto.
  - rewrite Z.add_0_r. auto.
  - rewrite IH. rewrite app_length. f_equal. lia.
Qed.
Lemma index_removelast P start : removelast (index start P) = index start (removelast P).
Proof.
  revert start. induction P as [|r P IH]; intros start; auto. destruct P as [|q P]; auto.
  change (removelast (index start (r :: q :: P))) with ((start, len r) :: removelast (index (start + len r) (q :: P))).
  rewrite IH. reflexivity.
Qed.
Lemma removelast_length' {A} (l : list A) : l <> [] -> S (length (removelast l)) = length l.
Proof.
  intros H. destruct (exists_last H) as (k & x & ->). rewrite removelast_last, app_length. cbn. lia.
Qed.

Section Populate.
Variable T : Type.
Variable conv : list Z -> option T.
Variables zero missing : T.
Variables warn rm : bool.
Notation populate := (populate T conv zero missing warn rm).

Lemma populate_spec sf (first : nat) d P extra : (first <= 1)%nat ->
  words d = concat P ++ extra -> lines d = index 0 P ->
  match populate sf (Z.of_nat first) d with
  | Populated st a nr nc => exists nrn ncn, nr = Z.of_nat nrn /\ nc = Z.of_nat ncn /\ (0 < nrn)%nat /\
      ncn = (length (concat (body sf P) ++ extra) / length (body sf P))%nat /\
      holds conv missing rm (skipn first (body sf P)) nrn ncn a /\
      (warn = false -> converts conv (skipn first (body sf P))) /\
      (st = st_success /\ converts conv (skipn first (body sf P)) \/
       st = st_missing_data /\ ~ converts conv (skipn first (body sf P)))
  | NoData _ => (length (body sf P) <= first)%nat
  | Refused => ~ rectangular (length (concat (body sf P) ++ extra) / length (body sf P)) (skipn first (body sf P)) \/
               warn = false /\ ~ converts conv (skipn first (body sf P))
  | BadAccess => False
  end.
Proof.
  intros F1 Ew El. unfold CsvTokModel.populate, lines_len. rewrite El, index_length.
  destruct (Z.eqb_spec (len P) 0) as [L0|L0]; cbn [orb].
  { destruct P; [|cbn in L0; lia]. destruct sf; cbn; lia. }
  destruct (sf && (len P =? 1)) eqn:E1.
  { apply andb_true_iff in E1 as [-> E1]. apply Z.eqb_eq in E1.
    destruct P as [|r [|r2 P]]; cbn [length] in E1; try lia. cbn. lia. }
  set (rs := body sf P).
  assert (PN : P <> []) by (intros ->; cbn in L0; lia).
  assert (Els : (if sf then removelast (index 0 P) else index 0 P) = index 0 rs).
  { unfold rs, body. destruct sf; auto. apply index_removelast. }
  assert (Enl : (if sf then len P - 1 else len P) = len rs).
  { unfold rs, body. destruct sf; auto. pose proof (removelast_length' P PN). lia. }
  assert (Ewl : (if sf then words_len d - snd (last (index 0 P) (0, 0)) else words_len d)
                = len (concat rs ++ extra)).
  { unfold rs, body, words_len. rewrite Ew. destruct sf; auto.
    destruct (exists_last PN) as (Q & r & ->). rewrite removelast_last, index_last, concat_app.
    cbn [concat]. rewrite app_nil_r, !app_length. lia. }
  rewrite Els, Enl, Ewl. clear Els Enl Ewl.
  assert (RN : (0 < length rs)%nat).
  { unfold rs, body. destruct sf; [|destruct P; [congruence|cbn; lia]].
    pose proof (removelast_length' P PN). cbn [andb] in E1. apply Z.eqb_neq in E1. lia. }
  destruct (Z.eqb_spec (len rs) (Z.of_nat first)) as [Lf|Lf]; [lia|].
  rewrite <- Nat2Z.inj_div. set (nc := (length (concat rs ++ extra) / length rs)%nat).
  rewrite Nat2Z.id, index_skipn. set (nr := (length rs - first)%nat).
  assert (RF : firstn first rs ++ skipn first rs = rs) by apply firstn_skipn.
  assert (RP : exists tail, words d = concat (firstn first rs) ++ concat (skipn first rs) ++ tail).
  { assert (Q : exists t2, P = rs ++ t2).
    { unfold rs, body. destruct sf; [|exists []; rewrite app_nil_r; auto].
      destruct (exists_last PN) as (Q & r & ->). rewrite removelast_last. eauto. }
    destruct Q as [t2 Q]. exists (concat t2 ++ extra). rewrite Ew, Q.
    rewrite <- RF at 1. rewrite !concat_app, <- !app_assoc. auto. }
  destruct RP as [tail RP].
  pose proof (fill_spec T conv missing warn rm (words d) (Z.of_nat first) nr nc st_success
    (skipn first rs) 0 (len (concat (firstn first rs))) st_success
    (repeat zero (nr * nc)) (concat (firstn first rs)) tail RP eq_refl) as X.
  cbn [Z.of_nat] in X.
  rewrite !Z.add_0_l in *.
  replace (Z.of_nat nr + Z.of_nat first) with (len rs) in X by (unfold nr; lia).
  replace (Z.to_nat (Z.of_nat nc * (len rs - Z.of_nat first))) with (nr * nc)%nat by (unfold nr; nia).
  specialize (X ltac:(rewrite skipn_length; unfold nr; lia) ltac:(apply repeat_length) (or_introl eq_refl)).
  destruct (fill _ _ _ _ _ _ _ _ _ _ _ _) as [st a nr' nc'| | |]; auto; try contradiction.
  destruct X as (X1 & X2 & X3 & X4 & X5 & X6 & X7 & X8).
  exists nr, nc. split; [auto|]. split; [auto|]. split; [unfold nr; lia|]. split; [auto|].
  split; [|auto]. split; [rewrite X3; apply repeat_length|].
  split; [rewrite skipn_length; auto|]. split; [auto|].
  intros i j r w Hi Hj. apply (X5 i j r w Hi Hj).
Qed.
End Populate.

(** ** Tables that were parsed to the end *)
Lemma pad_rows_nondecreasing prev rs : nondecreasing prev (pad_rows prev rs).
Proof.
  revert prev. induction rs as [|r rs IH]; intros prev; cbn; auto. split; auto.
  rewrite app_length, repeat_length. lia.
Qed.
Lemma rectangular_concat {A} nc (rs : list (list A)) : rectangular nc rs -> length (concat rs) = (length rs * nc)%nat.
Proof. induction 1 as [|r rs H F IH]; cbn; auto. rewrite app_length. lia. Qed.
Lemma rectangular_div {A} nc (rs : list (list A)) : rs <> [] -> rectangular nc rs ->
  (length (concat rs ++ []) / length rs = nc)%nat.
Proof.
  intros N R. rewrite app_nil_r, (rectangular_concat nc rs R). rewrite Nat.mul_comm.
  apply Nat.div_mul. destruct rs; [congruence|discriminate].
Qed.
Lemma rectangular_skipn {A} nc n (rs : list (list A)) : rectangular nc rs -> rectangular nc (skipn n rs).
Proof.
  intros R. unfold rectangular in *. rewrite Forall_forall in *. intros x Hx. apply R.
  rewrite <- (firstn_skipn n rs). apply in_or_app. auto.
Qed.
Lemma header_rectangular first nc rs : (first <= 1)%nat -> (first < length rs)%nat -> nondecreasing 0 rs ->
  rectangular nc (skipn first rs) -> nc = (length (concat rs ++ []) / length rs)%nat -> rectangular nc rs.
Proof.
  intros F L M R E. destruct first as [|[|]]; [exact R| |lia].
  destruct rs as [|h rs]; [constructor|]. cbn [skipn] in R. constructor; auto.
  destruct rs as [|r rs]; [cbn in L; lia|]. cbn [nondecreasing] in M. destruct M as (_ & M1 & _).
  assert (Lr : length r = nc) by (inversion R; auto).
  rewrite app_nil_r in E.
  change (concat (h :: r :: rs)) with (h ++ concat (r :: rs)) in E.
  rewrite app_length, (rectangular_concat nc _ R) in E.
  change (length (h :: r :: rs)) with (S (length (r :: rs))) in E.
  set (k := length (r :: rs)) in *.
  pose proof (Nat.mul_div_le (length h + k * nc) (S k) ltac:(lia)) as Q. rewrite <- E in Q. nia.
Qed.
