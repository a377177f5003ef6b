(** Facts about printed addresses. *)
From Coq Require Import NArith List Lia Bool Arith.
From Verif.Model Require Import Base Ip Ports AddrText AddrStr.
From Verif.Spec Require Import AddrSpec AddrTextSpec CafMeanSpec AddrStrSpec.
From Verif.Proofs Require Import AddrTextFacts Addr6Facts CafMean.
Import ListNotations.

(** ** The longest run of zeros *)
Definition zrun (p : list pystr) (j m : nat) : Prop :=
  j + m <= length p /\ forall k, j <= k < j + m -> nth k p [] = u "0".
Definition loop_inv (p : list pystr) (r : runs) : Prop :=
  start r = (if (len r =? 0) then None else Some (length p - len r)) /\ zrun p (length p - len r) (len r) /\ len r <= length p /\
  (forall m, zrun p (length p - m) m -> m <= length p -> m <= len r) /\
  (match best r with None => best_len r = 0 | Some b => zrun p b (best_len r) end) /\
  (forall j m, 0 < m -> zrun p j m -> exists b, best r = Some b /\ (m < best_len r \/ (m = best_len r /\ b <= j))).

Lemma zrun_app p x j m : zrun (p ++ [x]) j m -> 0 < m ->
  zrun p j m \/ (x = u "0" /\ j + m = S (length p) /\ zrun p j (m - 1)).
Proof.
  intros (B & Z) M. rewrite app_length in B. cbn in B.
  destruct (Nat.eq_dec (j + m) (S (length p))) as [E|E].
  - right. split; [|split; [exact E|split; [lia|]]].
    + rewrite <- (Z (length p)) by lia. now rewrite app_nth2, Nat.sub_diag by lia.
    + intros k K. rewrite <- (Z k) by lia. now rewrite app_nth1 by lia.
  - left. split; [lia|]. intros k K. rewrite <- (Z k) by lia. now rewrite app_nth1 by lia.
Qed.
Lemma zrun_mono p x j m : zrun p j m -> zrun (p ++ [x]) j m.
Proof. intros (B & Z). split; [rewrite app_length; lia|]. intros k K. rewrite app_nth1 by lia. auto. Qed.
Lemma zrun_snoc p j m : zrun p j m -> j + m = length p -> zrun (p ++ [u "0"]) j (S m).
Proof.
  intros (B & Z) E. split; [rewrite app_length; cbn; lia|]. intros k K.
  destruct (Nat.eq_dec k (length p)) as [->|N]; [now rewrite app_nth2, Nat.sub_diag by lia|]. rewrite app_nth1 by lia. apply Z. lia.
Qed.

Lemma step_inv p r x : loop_inv p r -> loop_inv (p ++ [x]) (run_step r (length p) x).
Proof.
  intros (S1 & Z1 & L1 & M1 & B1 & R1). unfold run_step.
  assert (Len : length (p ++ [x]) = S (length p)) by (rewrite app_length; cbn; lia).
  destruct (str_eqb x (u "0")) eqn:X.
  - apply str_eqb_eq in X. subst x.
    assert (St : match start r with None => Some (length p) | s => s end = Some (length p - len r)).
    { rewrite S1. destruct (Nat.eqb_spec (len r) 0) as [->|]; [now rewrite Nat.sub_0_r|reflexivity]. }
    assert (Zn : zrun (p ++ [u "0"]) (length p - len r) (S (len r))) by (apply zrun_snoc; [auto|lia]).
    assert (En : S (length p) - S (len r) = length p - len r) by lia.
    assert (Mx : forall m, zrun (p ++ [u "0"]) (S (length p) - m) m -> m <= S (length p) -> m <= S (len r)).
    { intros m Zm Lm. destruct m as [|m]; [lia|]. apply zrun_app in Zm as [(B & _)|(_ & E & Zm)]; [lia| |lia].
      - cbn in Zm. rewrite Nat.sub_0_r in Zm. assert (m <= len r); [|lia]. apply M1; [exact Zm|lia]. }
    cbv zeta. rewrite St. destruct (Nat.ltb_spec (best_len r) (S (len r))) as [Lt|Ge]; unfold loop_inv; cbn [start best best_len len]; rewrite Len; cbn [Nat.eqb]; rewrite En.
    + split; [reflexivity|]. split; [auto|]. split; [lia|]. split; [auto|]. split; [auto|].
      intros j m Mp Zm. exists (length p - len r). split; [reflexivity|]. apply zrun_app in Zm as [Zm|(_ & E & Zm)]; [| |lia].
      * destruct (R1 j m Mp Zm) as (b & _ & [O|(O & _)]); lia.
      * assert (m <= S (len r)); [|lia]. destruct m as [|m]; [lia|]. cbn in Zm. rewrite Nat.sub_0_r in Zm. assert (m <= len r); [|lia].
        apply M1; [|lia]. replace (length p - m) with j by lia. exact Zm.
    + split; [reflexivity|]. split; [auto|]. split; [lia|]. split; [auto|]. split; [destruct (best r); [now apply zrun_mono|auto]|].
      intros j m Mp Zm. apply zrun_app in Zm as [Zm|(_ & E & Zm)]; [| |lia]; [now apply R1|].
      destruct (best r) as [b|] eqn:Br; [|lia]. exists b. split; [reflexivity|].
      assert (m <= S (len r)). { destruct m as [|m]; [lia|]. cbn in Zm. rewrite Nat.sub_0_r in Zm. assert (m <= len r); [|lia].
        apply M1; [|lia]. replace (length p - m) with j by lia. exact Zm. }
      destruct B1 as (Bb & _). lia.
  - assert (X0 : x <> u "0"). { intros ->. now rewrite str_eqb_refl in X. }
    unfold loop_inv; cbn [start best best_len len]; rewrite Len. cbn [Nat.eqb]. split; [reflexivity|]. split; [split; [rewrite Len; lia|intros; lia]|]. split; [lia|]. split.
    { intros m Zm Lm. destruct m as [|m]; [lia|]. apply zrun_app in Zm as [(B & _)|(E & _)]; [lia|contradiction|lia]. }
    split; [destruct (best r); [now apply zrun_mono|auto]|]. intros j m Mp Zm. apply zrun_app in Zm as [Zm|(E & _)]; [auto|contradiction|auto].
Qed.
Lemma loop_ok l : forall p r, loop_inv p r -> loop_inv (p ++ l) (run_loop r (length p) l).
Proof.
  induction l as [|x l IH]; intros p r I; [now rewrite app_nil_r|]. cbn [run_loop].
  apply (step_inv p r x) in I. apply IH in I. rewrite <- app_assoc in I. cbn [app] in I.
  replace (length (p ++ [x])) with (S (length p)) in I by (rewrite app_length; cbn; lia). exact I.
Qed.
Lemma loop_start l : loop_inv l (run_loop (mkruns None 0 None 0) 0 l).
Proof.
  apply (loop_ok l [] (mkruns None 0 None 0)). unfold loop_inv, zrun. cbn. repeat split; try lia.
Qed.

(** ** The text of eight numbers *)
Lemma str_join_join l : str_join (u ":") l = join colon l.
Proof. induction l as [|x [|y l] IH]; auto. change (str_join (u ":") (x :: y :: l)) with (x ++ u ":" ++ str_join (u ":") (y :: l))%list. now rewrite IH. Qed.

Lemma hex16_plain n : (n < 65536)%N -> plain_hex (hex16 n) n.
Proof.
  intros L. split; [apply hex16_hextet; auto|].
  assert (D : forall d, (d < 16)%N -> ~ (65 <= hexdig d <= 70)%N /\ (hexdig d = 48%N -> d = 0%N)).
  { intros d Ld. unfold hexdig. destruct (N.ltb_spec d 10); lia. }
  assert (M : forall x, (x mod 16 < 16)%N) by (intros; apply N.mod_lt; discriminate).
  assert (Q : forall k, (n / k = 0 -> k <> 0 -> n < k)%N) by (intros k Z Nz; now apply N.div_small_iff).
  unfold hex16. split.
  - intros t. destruct (N.ltb_spec n 16); [intros [= _ <-]; auto|]. destruct (N.ltb_spec n 256); [|destruct (N.ltb_spec n 4096)]; intros [= E _]; exfalso.
    + apply D in E; [|apply N.div_lt_upper_bound; lia]. apply Q in E; lia.
    + apply D in E; [|apply N.div_lt_upper_bound; lia]. apply Q in E; lia.
    + apply D in E; [|apply N.div_lt_upper_bound; lia]. apply Q in E; lia.
  - intros c. destruct (N.ltb_spec n 16); [|destruct (N.ltb_spec n 256); [|destruct (N.ltb_spec n 4096)]]; cbn [In]; intros I;
      repeat (destruct I as [<-|I]; [apply D; first [assumption|apply M|apply N.div_lt_upper_bound; lia]|]); contradiction.
Qed.
Lemma hex16_zero n : (n < 65536)%N -> (hex16 n = u "0" <-> n = 0%N).
Proof.
  intros L. split; [|intros ->; reflexivity]. intros E. destruct (hex16_plain n L) as (H & _). rewrite E in H.
  apply hex_number_spec in H as (_ & _ & ->). reflexivity.
Qed.
Lemma zrun_zeros l : Forall (fun v => v < 65536)%N l -> forall j m, zrun (map hex16 l) j m <-> zeros_at l j m.
Proof.
  intros F j m. unfold zrun, zeros_at. rewrite map_length. split; intros (B & Z); (split; [exact B|]); intros k K; pose proof (Z k K) as E.
  - rewrite (nth_indep _ [] (hex16 0)) in E by (rewrite map_length; lia). rewrite map_nth in E.
    apply hex16_zero in E; [exact E|]. rewrite Forall_forall in F. apply F, nth_In. lia.
  - rewrite (nth_indep _ [] (hex16 0)) by (rewrite map_length; lia). rewrite map_nth, E. reflexivity.
Qed.

Lemma groups_join l : Forall (fun v => v < 65536)%N l -> l <> [] -> groups_text (join colon (map hex16 l)) l.
Proof.
  induction 1 as [|v l V F IH]; [congruence|]. intros _. destruct l as [|w l]; [apply GT_one, hex16_plain, V|].
  cbn [map]. rewrite join_cons by discriminate. apply GT_more; [apply hex16_plain, V|]. apply IH. discriminate.
Qed.
Lemma skip_skip {A} n : forall b (l : list A), skipn n (skipn b l) = skipn (b + n) l.
Proof. intros b. induction b as [|b IH]; intros l; [reflexivity|]. destruct l; [now rewrite !skipn_nil|]. cbn. apply IH. Qed.
Lemma zeros_split l b n : zeros_at l b n -> l = (firstn b l ++ repeat 0%N n ++ skipn (b + n) l)%list.
Proof.
  intros (B & Z). rewrite <- (firstn_skipn b l) at 1. f_equal. rewrite <- (firstn_skipn n (skipn b l)) at 1. rewrite skip_skip. f_equal.
  assert (Len : length (firstn n (skipn b l)) = n) by (rewrite firstn_length, skipn_length; lia).
  apply (nth_ext _ _ 0%N 0%N); [now rewrite repeat_length|]. intros k K. rewrite Len in K. rewrite nth_repeat.
  assert (G : forall (m : list N) i c, k < i -> nth k (firstn i (skipn c m)) 0%N = nth (c + k) m 0%N).
  { clear. intros m i c Lt. revert m. induction c as [|c IH]; intros m.
    - cbn [skipn Nat.add]. revert i m Lt. induction k as [|k IH]; intros [|i] [|x m] Lt; try lia; try reflexivity. cbn. apply IH. lia.
    - destruct m; [cbn; now rewrite firstn_nil; destruct k|]. cbn. apply IH. }
  rewrite G by auto. apply Z. lia.
Qed.

Lemma compress_text l : Forall (fun v => v < 65536)%N l -> l <> [] -> canonical6 (str_join (u ":") (compress (map hex16 l))) l.
Proof.
  intros F Ne. rewrite str_join_join. unfold compress. pose proof (loop_start (map hex16 l)) as (_ & _ & _ & _ & B & R).
  set (r := run_loop _ _ _) in *.
  assert (Small : best_len r <= 1 -> canonical6 (join colon (map hex16 l)) l).
  { intros Le. apply K_full; [now apply groups_join|]. intros i n Z. destruct n as [|n]; [lia|]. apply zrun_zeros in Z; [|auto].
    destruct (R i (S n)) as (b & _ & C); [lia|auto|]. lia. }
  destruct (best r) as [b|] eqn:Br; [|apply Small; lia]. destruct (Nat.ltb_spec 1 (best_len r)) as [Gt|Le]; [|now apply Small].
  set (n := best_len r) in *. apply zrun_zeros in B; [|auto]. pose proof B as (Bl & _). pose proof (zeros_split l b n B) as Sp.
  set (hi := firstn b l) in *. set (lo := skipn (b + n) l) in *.
  assert (Lhi : length hi = b) by (unfold hi; rewrite firstn_length; lia).
  assert (Fhi : Forall (fun v => v < 65536)%N hi) by (rewrite Sp, !Forall_app in F; tauto).
  assert (Flo : Forall (fun v => v < 65536)%N lo) by (rewrite Sp, !Forall_app in F; tauto).
  set (sh := if b =? 0 then [[]] else map hex16 hi). set (sl := match lo with [] => [[]] | _ => map hex16 lo end).
  match goal with |- canonical6 (join colon ?x) l => assert (X : x = sh ++ [[]] ++ sl) end.
  { rewrite map_length. assert (Llo : length lo = length l - (b + n)) by (unfold lo; apply skipn_length).
    assert (E1 : firstn b (if b + n =? length l then map hex16 l ++ [[]] else map hex16 l) = map hex16 hi).
    { unfold hi. rewrite <- firstn_map. destruct (b + n =? length l); [|reflexivity]. rewrite firstn_app, map_length. replace (b - length l) with 0 by lia. cbn [firstn]. apply app_nil_r. }
    assert (E2 : skipn (b + n) (if b + n =? length l then map hex16 l ++ [[]] else map hex16 l) = sl).
    { unfold sl, lo in *. destruct (Nat.eqb_spec (b + n) (length l)) as [E|E].
      - rewrite skipn_app, map_length, E, Nat.sub_diag, skipn_all. rewrite skipn_all2 by (rewrite map_length; lia). reflexivity.
      - destruct (skipn (b + n) l) as [|x y] eqn:Es; [cbn in Llo; lia|]. now rewrite skipn_map, Es. }
    rewrite E1, E2. unfold sh. destruct (Nat.eqb_spec b 0) as [Z|Z]; [|reflexivity].
    destruct hi; [reflexivity|cbn in Lhi; lia]. }
  rewrite X. rewrite join_app; [|unfold sh; destruct (Nat.eqb_spec b 0); [discriminate|]; intros E; apply map_eq_nil in E; rewrite E in Lhi; cbn in Lhi; lia|discriminate].
  cbn [app]. rewrite join_cons by (unfold sl; destruct lo; discriminate). cbn [app].
  rewrite Sp. apply K_short; [| |lia|rewrite <- Sp, Lhi].
  - unfold sh. destruct (Nat.eqb_spec b 0) as [Z|Z]; [left|right].
    + split; [reflexivity|]. destruct hi; [reflexivity|cbn in Lhi; lia].
    + apply groups_join; [auto|]. intros E. rewrite E in Lhi. cbn in Lhi. lia.
  - unfold sl. destruct lo as [|x y] eqn:El; [left; auto|right]. apply groups_join; [auto|discriminate].
  - split; [exact B|]. intros j m Zm. destruct m as [|m]; [lia|]. apply zrun_zeros in Zm; [|auto].
    destruct (R j (S m)) as (b' & E' & C); [lia|auto|]. injection E' as <-. exact C.
Qed.

Lemma words6_ok n : (n < 2 ^ 128)%N -> length (words6 n) = 8 /\ Forall (fun v => v < 65536)%N (words6 n) /\ number_of (words6 n) = n.
Proof.
  intros L. split; [reflexivity|]. split.
  { unfold words6. apply Forall_forall. intros v I. apply in_map_iff in I as (i & <- & _). apply N.mod_lt. discriminate. }
  unfold words6, number_of. cbn [map fold_left].
  assert (S : forall k, (n / 2 ^ (16 * k) = 65536 * (n / 2 ^ (16 * (k + 1))) + n / 2 ^ (16 * k) mod 65536)%N).
  { intros k. replace (2 ^ (16 * (k + 1)))%N with (2 ^ (16 * k) * 65536)%N by (rewrite N.mul_add_distr_l, N.pow_add_r; reflexivity).
    rewrite <- N.div_div by (try discriminate; apply N.pow_nonzero; discriminate). apply N.div_mod. discriminate. }
  pose proof (S 0%N) as S0. pose proof (S 1%N) as S1. pose proof (S 2%N) as S2. pose proof (S 3%N) as S3.
  pose proof (S 4%N) as S4. pose proof (S 5%N) as S5. pose proof (S 6%N) as S6. pose proof (S 7%N) as S7.
  change (0 + 1)%N with 1%N in *. change (1 + 1)%N with 2%N in *. change (2 + 1)%N with 3%N in *. change (3 + 1)%N with 4%N in *.
  change (4 + 1)%N with 5%N in *. change (5 + 1)%N with 6%N in *. change (6 + 1)%N with 7%N in *. change (7 + 1)%N with 8%N in *.
  assert (S8 : (n / 2 ^ (16 * 8) = 0)%N) by (apply N.div_small; exact L). rewrite S8 in S7.
  replace (n / 2 ^ (16 * 0))%N with n in * by (change (2 ^ (16 * 0))%N with 1%N; now rewrite N.div_1_r).
  clear S S8 L.
  repeat match goal with |- context [(?a mod 65536)%N] => let v := fresh in set (v := (a mod 65536)%N) in *; clearbody v end.
  repeat match goal with H : context [(n / ?a)%N] |- _ => let v := fresh in set (v := (n / a)%N) in *; clearbody v end.
  lia.
Qed.
