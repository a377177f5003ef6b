(** How the commands version, hostname, domain-name, name, access-group, interface and
    time-range of an ASA/FWSM configuration are written. *)
From Coq Require Import String.
From Verif.Model Require Import Base Ip Iface AddrText Ports AclText LineText.
From Verif.Spec Require Import AddrSpec AddrTextSpec CafMeanSpec AclTextSpec GroupTextSpec RefusedSpec.
Local Open Scope list_scope.

Definition lf : pystr := [10%N].
Definition one_line (t : pystr) : Prop := ~ In 10%N t.
Definition opens_blank (t : pystr) : Prop := exists c q, t = c :: q /\ (c = 32%N \/ c = 9%N).

(** ** Interfaces *)
Inductive kept_text : ifdetail -> pystr -> Prop :=
| KT_descr g t : gap g -> one_line t -> ~ opens_blank t -> kept_text (DDescription t) (u "description" ++ g ++ t ++ lf)
| KT_nameif g n z : gap g -> ident_text n -> end_text z -> kept_text (DNameif n) (u "nameif" ++ g ++ n ++ z)
| KT_ip4 g g1 a g2 m g3 g4 b z : gap g -> gap g1 -> gap g2 -> gap g3 -> gap g4 -> (a < 2 ^ 32)%N -> (m < 2 ^ 32)%N -> (b < 2 ^ 32)%N -> end_text z ->
    kept_text (DAddr4 (mkaddr V4 a) m) (u "ip" ++ g ++ u "address" ++ g1 ++ quad a ++ g2 ++ quad m ++ g3 ++ u "standby" ++ g4 ++ quad b ++ z)
| KT_ip6 g g1 a t d p g2 g3 b t' z : gap g -> gap g1 -> gap g2 -> gap g3 -> a_ver a = V6 -> address_text t a -> decimal_text d p -> a_ver b = V6 -> address_text t' b -> end_text z ->
    kept_text (DAddr6 a (Some p)) (u "ipv6" ++ g ++ u "address" ++ g1 ++ t ++ u "/" ++ d ++ g2 ++ u "standby" ++ g3 ++ t' ++ z).
(** A line of which nothing is kept. *)
Definition unkept (l : pystr) : Prop := forall d, ~ kept_text d (l ++ lf).
(** An address line with something like an address in it that is none: ValueError. *)
Inductive refused_line : pystr -> Prop :=
| RF_ip4 g g1 q : gap g -> gap g1 -> malformed4 q -> refused_line (u "ip" ++ g ++ u "address" ++ g1 ++ q)
| RF_mask g g1 a g2 q : gap g -> gap g1 -> (a < 2 ^ 32)%N -> gap g2 -> malformed4 q -> refused_line (u "ip" ++ g ++ u "address" ++ g1 ++ quad a ++ g2 ++ q)
| RF_standby4 g g1 a g2 m g3 g4 q : gap g -> gap g1 -> (a < 2 ^ 32)%N -> gap g2 -> (m < 2 ^ 32)%N -> gap g3 -> gap g4 -> malformed4 q ->
    refused_line (u "ip" ++ g ++ u "address" ++ g1 ++ quad a ++ g2 ++ quad m ++ g3 ++ u "standby" ++ g4 ++ q)
| RF_ip6 g g1 q : gap g -> gap g1 -> malformed6 q -> refused_line (u "ipv6" ++ g ++ u "address" ++ g1 ++ q)
| RF_standby6 g g1 a t d p g2 g3 q : gap g -> gap g1 -> a_ver a = V6 -> address_text t a -> decimal_text d p -> gap g2 -> gap g3 -> malformed6 q ->
    refused_line (u "ipv6" ++ g ++ u "address" ++ g1 ++ t ++ u "/" ++ d ++ g2 ++ u "standby" ++ g3 ++ q).
(** Any other line: nothing is kept of it, and nothing in it is refused. *)
Definition other_line (l : pystr) : Prop := unkept l /\ ~ refused_line l.
Section Details.
  Variable other : pystr -> Prop.
  Inductive details_text : list ifdetail -> pystr -> Prop :=
  | DL_nil : details_text [] []
  | DL_kept d t l ts : kept_text d t -> details_text l ts -> details_text (d :: l) (u " " ++ t ++ ts)
  | DL_other t l ts : one_line t -> other t -> details_text l ts -> details_text (DNone :: l) (u " " ++ t ++ lf ++ ts).
End Details.

(** ** Times *)
Definition leap (y : N) : Prop := ((y mod 4 = 0) /\ (y mod 100 <> 0 \/ y mod 400 = 0))%N.
(** The number of a month and its length. *)
Inductive month_text : pystr -> N -> N -> N -> Prop :=
| MT_long n s y : In (n, s) [(1%N, "January"); (3%N, "March"); (5%N, "May"); (7%N, "July"); (8%N, "August"); (10%N, "October"); (12%N, "December")]%string -> month_text (u s) n y 31
| MT_short n s y : In (n, s) [(4%N, "April"); (6%N, "June"); (9%N, "September"); (11%N, "November")]%string -> month_text (u s) n y 30
| MT_february y : ~ leap y -> month_text (u "February") 2 y 28
| MT_february_leap y : leap y -> month_text (u "February") 2 y 29.
Definition short_number (t : pystr) (v : N) : Prop := decimal_text t v /\ (length t <= 2)%nat.
Inductive tod_text : tod -> pystr -> Prop :=
| TT h m th tm : short_number th h -> short_number tm m -> (h < 24)%N -> (m < 60)%N -> tod_text (mktod h m) (th ++ u ":" ++ tm).
Inductive moment_text : moment -> pystr -> Prop :=
| MO t tt g td d g1 tm m y len g2 ty : tod_text t tt -> gap g -> short_number td d -> gap g1 -> month_text tm m y len -> gap g2 ->
    decimal_text ty y -> length ty = 4%nat -> (1 <= y)%N -> (1 <= d <= len)%N ->
    moment_text (mkmoment t d m y) (tt ++ g ++ td ++ g1 ++ tm ++ g2 ++ ty).
Definition weekday (t : pystr) : Prop := words ["Monday"; "Tuesday"; "Wednesday"; "Thursday"; "Friday"; "Saturday"; "Sunday"]%string t.
Inductive bound_text (w : string) : option moment -> pystr -> Prop :=
| BO_none : bound_text w None []
| BO_some g g' m t : gap g -> gap g' -> moment_text m t -> bound_text w (Some m) (g ++ u w ++ g' ++ t).
Inductive timeobj_text : timeobj -> pystr -> Prop :=
| TO_day g d g1 s ts g2 g3 e te z : gap g -> weekday d -> gap g1 -> tod_text s ts -> gap g2 -> gap g3 -> tod_text e te -> eol_text z ->
    timeobj_text (TPeriodic [d] s None e) (u "periodic" ++ g ++ d ++ g1 ++ ts ++ g2 ++ u "to" ++ g3 ++ te ++ z)
| TO_days g d g1 s ts g2 g3 d' g4 e te z : gap g -> weekday d -> gap g1 -> tod_text s ts -> gap g2 -> gap g3 -> weekday d' -> gap g4 -> tod_text e te -> eol_text z ->
    timeobj_text (TPeriodic [d] s (Some d') e) (u "periodic" ++ g ++ d ++ g1 ++ ts ++ g2 ++ u "to" ++ g3 ++ d' ++ g4 ++ te ++ z)
| TO_kind g w g1 s ts g2 g3 e te z : gap g -> words ["weekdays"; "weekend"; "daily"]%string w -> gap g1 -> tod_text s ts -> gap g2 -> gap g3 -> tod_text e te -> eol_text z ->
    timeobj_text (TPeriodic [w] s None e) (u "periodic" ++ g ++ w ++ g1 ++ ts ++ g2 ++ u "to" ++ g3 ++ te ++ z)
| TO_absolute a ta b tb z : bound_text "start" a ta -> bound_text "end" b tb -> eol_text z -> timeobj_text (TAbsolute a b) (u "absolute" ++ ta ++ tb ++ z).
Inductive timeobjs_text : list timeobj -> pystr -> Prop :=
| TL_nil : timeobjs_text [] []
| TL_some x t l ts : timeobj_text x t -> timeobjs_text l ts -> timeobjs_text (x :: l) (u " " ++ t ++ ts)
| TL_no g t l ts : gap g -> one_line t -> ~ opens_blank t -> timeobjs_text l ts -> timeobjs_text l (u " no" ++ g ++ t ++ lf ++ ts).

(** ** Commands *)
Section Simple.
  Variables (isalnum isspace : N -> bool) (other : pystr -> Prop).
  Definition opens_alnum (t : pystr) : Prop := exists c q, t = c :: q /\ isalnum c = true.
  Inductive simple_text : simple -> pystr -> Prop :=
  | ST_version w t : words ["ASA Version "; "FWSM Version "]%string w -> one_line t -> simple_text (SVersion (w ++ t)) (w ++ t ++ lf)
  | ST_hostname g n z : gap g -> ident_text n -> eol_text z -> simple_text (SHostname n) (u "hostname" ++ g ++ n ++ z)
  | ST_domain g n : gap g -> ident_text n -> simple_text (SDomain n) (u "domain-name" ++ g ++ n)
  | ST_name g a t g1 n z : gap g -> address_text t a -> gap g1 -> ident_text n -> eol_text z ->
      simple_text (SName (mkname n a None)) (u "name" ++ g ++ t ++ g1 ++ n ++ z)
  | ST_name_descr g a t g1 n g2 d : gap g -> address_text t a -> gap g1 -> ident_text n -> gap g2 -> one_line d -> d <> [] -> ~ opens_alnum d ->
      simple_text (SName (mkname n a (Some d))) (u "name" ++ g ++ t ++ g1 ++ n ++ g2 ++ u "description" ++ d ++ lf)
  | ST_bind g n g1 d g2 g3 i z : gap g -> name_text n -> gap g1 -> name_text d -> gap g2 -> gap g3 -> name_text i -> end_text z ->
      simple_text (SBind n d i) (u "access-group" ++ g ++ n ++ g1 ++ d ++ g2 ++ u "interface" ++ g3 ++ i ++ z)
  | ST_bind_none g n g1 d g2 g3 z : gap g -> name_text n -> gap g1 -> name_text d -> gap g2 -> gap g3 -> eol_text z ->
      simple_text (SBind n d []) (u "access-group" ++ g ++ n ++ g1 ++ d ++ g2 ++ u "interface" ++ g3 ++ z)
  | ST_global g n g1 z : gap g -> name_text n -> gap g1 -> end_text z -> simple_text (SGlobal n) (u "access-group" ++ g ++ n ++ g1 ++ u "global" ++ z)
  | ST_interface g a z l t : gap g -> url_text isspace a -> eol_text z -> details_text other l t -> simple_text (SInterface a l) (u "interface" ++ g ++ a ++ z ++ t)
  | ST_time g n z l t : gap g -> url_text isspace n -> eol_text z -> timeobjs_text l t -> simple_text (STime n l) (u "time-range" ++ g ++ n ++ z ++ t).
End Simple.
(** What may follow. *)
Definition simple_rest (x : simple) (r : pystr) : Prop :=
  match x with
  | SDomain _ => forall c q, r = c :: q -> ~ (letter c \/ digit c \/ c = 95%N \/ c = 45%N \/ c = 46%N)
  | SInterface _ _ | STime _ _ => ~ exists q, r = 32%N :: q
  | _ => True
  end.
