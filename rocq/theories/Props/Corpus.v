(** The project's own tests, run on the model (tests, not proofs): the texts of
    /repo/tests/acl/tpl/*.jinja2 rendered as tests/test_acl.py renders them, and
    /repo/tests/caf/*.caf; what is computed here is what tests/test_acl.py and
    tests/test_caf.py require.  Written by tools/corpus/mk.py. *)
From Coq Require Import Lia String.
From Verif.Model Require Import Base Ip Hosts Groups Rules Caf Nat Iface Peg Ids AddrText Ports AclText Define GroupText ObjText LineText NatText FileText FileFilter IosText IosFile IosFilter Pfsense PfFile CafText Detect Auto Resolve AutoResolve.
From Verif.Spec Require Import AutoSpec PipelineSpec AutoResolveSpec CafTextSpec AddrSpec AddrTextSpec AclTextSpec FileTextSpec.
From Verif.Props Require Import CafText AclText Detect FileText FileFilter IosFileText IosFilter PfFile PfFilter Auto Pipeline AutoResolve.
Local Open Scope list_scope.

(** fwsmConfig.fromString, iosConfig.fromString, cafBlock.fromString: how many commands are
    read, or the exception. *)
Definition asa_outcome (s : pystr) : result nat :=
  match FileText.parse_file ascii_alpha ascii_alnum ascii_space C52_int s with Ok (cs, _, _) => Ok (List.length cs) | Err e => Err e end.
Definition ios_outcome (s : pystr) : result nat :=
  match IosFile.ios_parse ascii_alpha ascii_alnum ascii_space C52_int s with Ok (cs, _, _) => Ok (List.length cs) | Err e => Err e end.
Definition caf_outcome (s : pystr) : result unit :=
  match CafText.read s with Ok _ => Ok tt | Err e => Err e end.
Definition reads (r : result nat) : Prop := match r with Ok _ => True | Err _ => False end.
Definition fails (r : result nat) : Prop := match r with Ok _ => False | Err _ => True end.

(** fwsmTestBlock: every block of fwsm.jinja2 that is tested, with those it depends on, and the whole file *)
Definition asa_names : pystr :=
  u "
names
name 127.1.0.1 localhorst
name 127.1.0.2 localbernd description localbernd
name 192.168.5.1 betternet
name fe80::2aa:bbcc:ddee:ff04 v6name
!
".
Definition asa_interfaces : pystr :=
  u "
interface Ethernet0
 description this interface is like eth0
 nameif outside
 security-level 0
 ip address 10.1.1.1 255.255.255.240 standby 10.1.1.2
!


interface IfWithTrailingWS
 ip address 1.1.1.1 255.255.255.128 standby 2.2.2.2 
!



interface inside
!

interface outside
!

interface dmz
!



".
Definition asa_interface_with_trailing_ws : pystr :=
  u "
interface IfWithTrailingWS
 ip address 1.1.1.1 255.255.255.128 standby 2.2.2.2 
!
".
Definition asa_time_ranges : pystr :=
  u "
time-range time_range_test0
 absolute start 23:59 15 April 2010
!

time-range time_range_test1
 absolute start 23:59 15 April 2010 end 23:59 16 April 2010
!


time-range time_range_test2
 periodic daily 12:00 to 13:00
 periodic Monday 13:00 to Tuesday 14:00
 no periodic
 no absolute
!

time-range anytime
 absolute end 23:59 15 April 2010
!

time-range emptyrange
!
".
Definition asa_object_service : pystr :=
  u "
object service TCPSourceService
 service tcp source range 1 100
 description low ports

object service TCPBothService
 service tcp source eq 100 destination eq 100

object service ICMPEchoService0
 service icmp echo

object service ICMPEchoService1
 service icmp 8 21

object service ICMPEchoService2
 service icmp echo-reply

object service ICMPEchoService3
 service icmp

object service ICMPObjectWithTypeAndCode
 service icmp echo 0

!object-group service ServiceProtocolByCode
! service 41

!object-group service ServiceProtocolByName
! service eigrp
".
Definition asa_object_group_icmp_type : pystr :=
  u "
object-group icmp-type ICMPGroup
 description icmp group
 icmp-object unreachable
 icmp-object 30

object-group icmp-type NestMe0-IG
 icmp-object unreachable

object-group icmp-type NestMe1-IG
 icmp-object 20

object-group icmp-type Nested0-IG
 group-object NestMe0-IG
 group-object NestMe1-IG
".
Definition asa_object_group_service : pystr :=
  u "
object-group icmp-type ICMPGroup
 description icmp group
 icmp-object unreachable
 icmp-object 30

object-group icmp-type NestMe0-IG
 icmp-object unreachable

object-group icmp-type NestMe1-IG
 icmp-object 20

object-group icmp-type Nested0-IG
 group-object NestMe0-IG
 group-object NestMe1-IG

object service TCPSourceService
 service tcp source range 1 100
 description low ports

object service TCPBothService
 service tcp source eq 100 destination eq 100

object service ICMPEchoService0
 service icmp echo

object service ICMPEchoService1
 service icmp 8 21

object service ICMPEchoService2
 service icmp echo-reply

object service ICMPEchoService3
 service icmp

object service ICMPObjectWithTypeAndCode
 service icmp echo 0

!object-group service ServiceProtocolByCode
! service 41

!object-group service ServiceProtocolByName
! service eigrp

object-group service ServiceGroupWithProtocol tcp
 description www & https
 port-object eq www
 port-object eq https


object-group service NestMe0-SG udp
 port-object eq domain

object-group service NestMe1-SG udp
 port-object eq bootps
 port-object range 1024 2048


object-group service Nested0-SG udp
 group-object NestMe0-SG
 group-object NestMe1-SG


object-group service Nested1-SG udp
 group-object Nested0-SG

object-group service ServiceGroupForNesting
 service-object udp destination eq 53

object-group service ServiceGroupWithOutProtocol
 description PR 9.3 service group
 service-object tcp destination eq www
 service-object object TCPSourceService
" ++
  u " service-object object TCPBothService
 service-object object ICMPEchoService0
 service-object object ICMPEchoService1
 service-object object ICMPEchoService2
 service-object object ICMPEchoService3
 service-object icmp echo 12
 group-object ServiceGroupForNesting

object-group service ServiceGroupWithWhitespace
 service-object tcp destination eq 9876
 service-object udp destination eq 9876

object-group service ICMPServiceGroupWithOutCode
 service-object icmp echo
 service-object icmp 8

object-group service ICMPServiceGroupWithCode
 service-object icmp echo 12
 service-object icmp 8 12

object-group service ICMP_Any
 description ICMP Any Type Any Code
 service-object icmp alternate-address
 service-object icmp conversion-error
 service-object icmp echo
 service-object icmp echo-reply
 service-object icmp information-reply
 service-object icmp information-request
 service-object icmp mask-reply
 service-object icmp mask-request
 service-object icmp mobile-redirect
 service-object icmp parameter-problem
 service-object icmp redirect
 service-object icmp router-advertisement
 service-object icmp router-solicitation
 service-object icmp source-quench
 service-object icmp time-exceeded
 service-object icmp timestamp-reply
 service-object icmp timestamp-request
 service-object icmp traceroute
 service-object icmp unreachable
 service-object icmp6 echo
 service-object icmp6 echo-reply
 service-object icmp6 membership-query
 service-object icmp6 membership-reduction
 service-object icmp6 membership-report
" ++
  u " service-object icmp6 neighbor-advertisement
 service-object icmp6 neighbor-redirect
 service-object icmp6 neighbor-solicitation
 service-object icmp6 packet-too-big
 service-object icmp6 parameter-problem
 service-object icmp6 router-advertisement
 service-object icmp6 router-renumbering
 service-object icmp6 router-solicitation
 service-object icmp6 time-exceeded
 service-object icmp6 unreachable
 service-object icmp

object-group service ObjectGroupWithIPServiceByName
 service-object ip
 service-object icmp
 service-object tcp destination eq www
 service-object tcp destination eq https
 service-object tcp destination eq ssh
".
Definition asa_object_network : pystr :=
  u "
object network NetworkObjectRange
 range 10.0.0.1 10.0.0.4
 description Network Range Object

object network Network6RangeObject
 range ::1 ::2

object network NetworkObjectFQDN
 fqdn example.com

object network NetworkObjectFQDNv4
 fqdn v4 example.com

object network NetworkObjectFQDNv6
 fqdn v6 example.com

object network NetworkObjectHost
 host 127.4.0.1

object network NetworkObjectSubnet
 subnet 127.0.1.0 255.255.255.0

object network Network6SubnetObject
 subnet ::/127

:object network NetworkObjectName
:  host localbernd

object network NetworkObjectEmpty


object network v6NetworkObject
 host fe80::2aa:bbcc:ddee:ff03

object network theNATObject
 host 1.1.1.1

".
Definition asa_object_group_network : pystr :=
  u "
object network NetworkObjectRange
 range 10.0.0.1 10.0.0.4
 description Network Range Object

object network Network6RangeObject
 range ::1 ::2

object network NetworkObjectFQDN
 fqdn example.com

object network NetworkObjectFQDNv4
 fqdn v4 example.com

object network NetworkObjectFQDNv6
 fqdn v6 example.com

object network NetworkObjectHost
 host 127.4.0.1

object network NetworkObjectSubnet
 subnet 127.0.1.0 255.255.255.0

object network Network6SubnetObject
 subnet ::/127

:object network NetworkObjectName
:  host localbernd

object network NetworkObjectEmpty


object network v6NetworkObject
 host fe80::2aa:bbcc:ddee:ff03

object network theNATObject
 host 1.1.1.1


names
name 127.1.0.1 localhorst
name 127.1.0.2 localbernd description localbernd
name 192.168.5.1 betternet
name fe80::2aa:bbcc:ddee:ff04 v6name
!

object-group network NetworkGroupHost
 network-object host 127.0.0.1

object-group network NetworkGroupNet
 network-object 127.0.0.1 255.255.255.0

object-group network NetworkGroupAlias
 network-object localbernd 255.255.255.0

object-group network NetworkGroupWithRecursion
 group-object NetworkGroupHost
 group-object NetworkGroupNet

object-group network NestMe0-NG
 network-object host localbernd

object-group network NestMe1-NG
 network-object host localhorst

object-group network NestMe2-NG
 network-object host 127.1.0.0

object-group network Nested0-NG
 description nested
 group-object NestMe2-NG
 group-object NestMe0-NG
 group-object NestMe1-NG

object-group network NetworkObjectsGroup0
" ++
  u " network-object host 127.0.0.1

object-group network NetworkObjectsGroup
 network-object object NetworkObjectHost
 network-object object NetworkObjectSubnet
 network-object object NetworkObjectRange
 network-object object NetworkObjectFQDN
 network-object object NetworkObjectFQDNv4
 network-object object NetworkObjectFQDNv6
 group-object NetworkObjectsGroup0


object-group network v6NetworkGroup
 network-object host fe80::2aa:bbcc:ddee:ff04
 network-object object v6NetworkObject


object-group network NetworkGroupWithAllTypes
 description egal
 network-object host 127.1.0.0
 network-object object NetworkObjectFQDN
 network-object 127.0.0.0 255.255.255.0
 network-object localbernd 255.255.255.0
 network-object fe80::2aa:bbcc:ddee:ff03/124
 network-object v6name/124

".
Definition asa_object_protocol : pystr :=
  u "
object-group protocol NestMe0-PG
 protocol-object tcp

object-group protocol NestMe1-PG
 protocol-object udp
 protocol-object icmp

object-group protocol Nested0-PG
 description nested protocol group
 group-object NestMe0-PG
 group-object NestMe1-PG
".
Definition asa_access_list_rule_webtype : pystr :=
  u "
access-list webvpn_out webtype permit url ssh://mac.gflyg.se log default
access-list webvpn_out webtype permit tcp host 127.0.0.1 range 80 81 log default
access-list webvpn_out webtype permit tcp any lt 81 log default
".
Definition asa_access_list_rule_ethertype : pystr :=
  u "
access-list outside_ether_access_in ethertype permit bpdu
access-list inside_ether_access_in ethertype remark
access-list inside_ether_access_in ethertype permit bpdu
".
Definition asa_access_list_log_level : pystr :=
  u "
access-list outside_ether_access_in extended deny ip any any log
access-list outside_ether_access_in extended deny ip any any log 5 default
access-list outside_ether_access_in extended deny ip any any log default 5
access-list outside_ether_access_in extended deny ip any any log debugging 5 interval 300
".
Definition asa_access_list_rule_protocol : pystr :=
  u "
access-list outside_ether_access_in extended deny tcp any any
access-list outside_ether_access_in extended deny udp any any
".
Definition asa_access_list_rule_protocol_int : pystr :=
  u "
access-list access_in extended deny 0 any any
access-list access_in extended deny 10 any any
access-list access_in extended deny 255 any any
".
Definition asa_access_list_rule_expand : pystr :=
  u "
object-group service p0123 tcp
 port-object eq 0
 port-object eq 1
 port-object eq 2
 port-object eq 3

object-group service p4567 tcp
 port-object eq 4
 port-object eq 5
 port-object eq 6
 port-object eq 7

object-group service p89
 service-object tcp source lt 8
 service-object tcp destination gt  9

object-group service p01
 service-object tcp source eq 0
 service-object tcp source eq 1

object-group service p23
 service-object tcp destination eq 2
 service-object tcp destination eq 3

object-group service p01p23
 service-object tcp source eq 0 destination eq 1
 service-object tcp source eq 1 destination eq 2

object-group service p32 tcp
 port-object eq 1
 port-object eq 2
 port-object eq 3
 port-object eq 4
 port-object eq 5
 port-object eq 6
 port-object eq 7
 port-object eq 8
 port-object eq 9
 port-object eq 10
 port-object eq 11
 port-object eq 12
 port-object eq 13
 port-object eq 14
 port-object range 1 15
 port-object eq 16

access-list ports extended permit tcp any object-group p0123 any object-group p4567
access-list ports extended permit tcp any object-group p32 any object-group p32
access-list ports extended permit object-group p89 any any
access-list ports extended permit object-group p01 any any
access-list ports extended permit object-group p23 any any
access-list ports extended permit object-group p01p23 any any

".
Definition asa_object_group_service_int : pystr :=
  u "
object-group service ObjectGroupWithIPServiceByInteger
 service-object 17
".
Definition asa_object_service_int : pystr :=
  u "
object service ServiceByInt
 service 6
".
Definition asa_nat : pystr :=
  u "
interface inside
!

interface outside
!

interface dmz
!





object network my-range-obj
 range 10.2.2.1 10.2.2.10

object network my-inside-net
 subnet 192.168.2.0 255.255.255.0
 nat (inside,outside) dynamic my-range-obj





object network nat-range1
 range 10.10.10.10 10.10.10.20

object network pat-ip1
 host 10.10.10.21

object-group network nat-pat-grp
 network-object object nat-range1
 network-object object pat-ip1

object network my_net_obj5
 subnet 10.76.11.0 255.255.255.0
 nat (inside,outside) dynamic nat-pat-grp interface




object network IPv4_NAT_RANGE
 range 209.165.201.1 209.165.201.30

object network IPv4_PAT
 host 209.165.201.31

object-group network IPv4_GROUP
 network-object object IPv4_NAT_RANGE
 network-object object IPv4_PAT

object network my_net_obj5
 subnet 2001:DB8::/96
 nat (inside,outside) dynamic IPv4_GROUP interface




object network my-inside-net
 subnet 192.168.2.0 255.255.255.0
 nat (inside,outside) dynamic 10.2.2.2




object network my-inside-net
 subnet 192.168.2.0 255.255.255.0
 nat (inside,outside) dynamic interface




object network IPv4_POOL
 range 203.0.113.1 203.0.113.254

object network IPv6_INSIDE
 subnet 2001:DB8::/96
 nat (inside,outside) dynamic pat-pool IPv4_POOL





object network my-host-obj1
 host 10.1.1.1
 nat (inside,outside) static 10.2.2.2 dns





object network my-mapped-obj
 host 10.2.2.2

object network my-host-obj1
 host 10.1.1.1
 nat (inside,outside) static my-mapped-obj






object network my-ftp-server
 host 10.1.1.1
" ++
  u " nat (inside,outside) static interface service tcp 21 2121




object network inside_v4_v6
 subnet 10.1.1.0 255.255.255.0
 nat (inside,outside) static 2001:DB8::/96




object network inside_v6
 subnet 2001:DB8:AAAA::/96
 nat (inside,outside) static 2001:DB8:BBBB::/96





object network my-host-obj1
 host 10.1.1.1
 nat (inside,outside) static 10.1.1.1






object network my-host-obj1-identity
 host 10.1.1.1

object network my-host-obj1
 host 10.1.1.1
 nat (inside,outside) static my-host-obj1-identity




object network my-host-obj2-identity
 host 10.1.1.1

object network my-host-obj2
 host 10.1.1.1

object network my-host-obj2
 nat (inside,outside) static my-host-obj2-identity




object network my-host-nat-any-0
 nat (any,any) static 127.0.0.1





object network INSIDE_NW
 subnet 10.1.1.0 255.255.255.0

object network MAPPED_1
 range 209.165.200.225 209.165.200.254

object network MAPPED_2
 range 209.165.202.129 209.165.202.158

object network SERVERS_1
 subnet 209.165.201.0 255.255.255.224

object network SERVERS_2
 subnet 203.0.113.0 255.255.255.0

nat (inside,outside) source dynamic INSIDE_NW MAPPED_1 destination static SERVERS_1 SERVERS_1

nat (inside,outside) source dynamic INSIDE_NW MAPPED_2 destination static SERVERS_2 SERVERS_2






object network INSIDE_NW
 subnet 2001:DB8:AAAA::/96

object network MAPPED_1
 range 209.165.200.225 209.165.200.254

object network MAPPED_2
 range 209.165.202.129 209.165.202.158

object network SERVERS_1
 subnet 209.165.201.0 255.255.255.224
" ++
  u "
object network SERVERS_2
 subnet 203.0.113.0 255.255.255.0

nat (inside,outside) source dynamic INSIDE_NW MAPPED_1 destination static SERVERS_1 SERVERS_1
nat (inside,outside) source dynamic INSIDE_NW MAPPED_2 destination static SERVERS_2 SERVERS_2







object network INSIDE_NW
 subnet 192.168.1.0 255.255.255.0

object network PAT_POOL
 range 209.165.200.225 209.165.200.254

object network TELNET_SVR
 host 209.165.201.23

object service TELNET
 service tcp destination eq 23

object network SERVERS
 subnet 203.0.113.0 255.255.255.0

nat (inside,outside) source dynamic INSIDE_NW interface destination static TELNET_SVR TELNET_SVR service TELNET TELNET

nat (inside,outside) source dynamic INSIDE_NW pat-pool PAT_POOL destination static SERVERS SERVERS

nat (inside,outside) source dynamic INSIDE_NW pat-pool PAT_POOL interface destination static SERVERS SERVERS

nat (inside,outside) source dynamic INSIDE_NW pat-pool PAT_POOL interface ipv6 destination static SERVERS SERVERS





object network INSIDE_NW
 subnet 192.168.1.0 255.255.255.0

object network PAT_POOL
 range 2001:DB8:AAAA::1 2001:DB8:AAAA::200

object network TELNET_SVR
 host 2001:DB8::23

object service TELNET
 service tcp destination eq 23

object network SERVERS
 subnet 2001:DB8:AAAA::/96

nat (inside,outside) source dynamic INSIDE_NW interface ipv6 destination static TELNET_SVR TELNET_SVR service TELNET TELNET

nat (inside,outside) source dynamic INSIDE_NW pat-pool PAT_POOL  destination static SERVERS SERVERS

nat (inside,outside) source dynamic INSIDE_NW pat-pool PAT_POOL interface destination static SERVERS SERVERS
" ++
  u "
nat (inside,outside) source dynamic INSIDE_NW pat-pool PAT_POOL interface ipv6 destination static SERVERS SERVERS








object service FTP_PASV_PORT_RANGE
 service tcp source range 65000 65004

object network HOST_FTP_SERVER
 host 192.168.10.100

nat (inside,outside) source static HOST_FTP_SERVER interface service FTP_PASV_PORT_RANGE FTP_PASV_PORT_RANGE






object network INSIDE_NW
 subnet 2001:DB8:AAAA::/96

object network MAPPED_IPv6_NW
 subnet 2001:DB8:BBBB::/96

object network OUTSIDE_IPv6_NW
 subnet 2001:DB8:CCCC::/96

object network OUTSIDE_IPv4_NW
 subnet 10.1.1.0 255.255.255.0

object network MAPPED_IPv4_POOL
 range 10.1.2.1 10.1.2.254

nat (inside,outside) source static INSIDE_NW MAPPED_IPv6_NW destination static OUTSIDE_IPv6_NW OUTSIDE_IPv6_NW


nat (inside,outside) source dynamic INSIDE_NW pat-pool MAPPED_IPv4_POOL  destination static OUTSIDE_IPv4_NW OUTSIDE_IPv4_NW

nat (inside,outside) source dynamic INSIDE_NW pat-pool MAPPED_IPv4_POOL interface destination static OUTSIDE_IPv4_NW OUTSIDE_IPv4_NW

nat (inside,outside) source dynamic INSIDE_NW pat-pool MAPPED_IPv4_POOL interface ipv6 destination static OUTSIDE_IPv4_NW OUTSIDE_IPv4_NW





object network myInsideNetwork
 subnet 10.1.2.0 255.255.255.0

object network DMZnetwork1
 subnet 209.165.201.0 255.255.255.224

object network PATaddress1
 host 209.165.202.129


nat (inside,dmz) source dynamic myInsideNetwork PATaddress1  destination static DMZnetwork1 DMZnetwork1

nat (inside,dmz) source dynamic myInsideNetwork PATaddress1 interface destination static DMZnetwork1 DMZnetwork1
" ++
  u "
nat (inside,dmz) source dynamic myInsideNetwork PATaddress1 interface ipv6 destination static DMZnetwork1 DMZnetwork1


object network DMZnetwork2
 subnet 209.165.200.224 255.255.255.224

object network PATaddress2
 host 209.165.202.130


nat (inside,dmz) source dynamic myInsideNetwork PATaddress2  destination static DMZnetwork2 DMZnetwork2

nat (inside,dmz) source dynamic myInsideNetwork PATaddress2 interface destination static DMZnetwork2 DMZnetwork2

nat (inside,dmz) source dynamic myInsideNetwork PATaddress2 interface ipv6 destination static DMZnetwork2 DMZnetwork2





object network myInsideNetwork
 subnet 10.1.2.0 255.255.255.0

object network TelnetWebServer
 host 209.165.201.11

object network PATaddress1
 host 209.165.202.129

object service TelnetObj
 service tcp destination eq telnet



nat (inside,outside) source dynamic myInsideNetwork PATaddress1  destination static TelnetWebServer TelnetWebServer service TelnetObj TelnetObj

nat (inside,outside) source dynamic myInsideNetwork PATaddress1 interface destination static TelnetWebServer TelnetWebServer service TelnetObj TelnetObj

nat (inside,outside) source dynamic myInsideNetwork PATaddress1 interface ipv6 destination static TelnetWebServer TelnetWebServer service TelnetObj TelnetObj


object network PATaddress2
 host 209.165.202.130

object service HTTPObj
 service tcp destination eq http


nat (inside,outside) source dynamic myInsideNetwork PATaddress2  destination static TelnetWebServer TelnetWebServer service HTTPObj HTTPObj
" ++
  u "
nat (inside,outside) source dynamic myInsideNetwork PATaddress2 interface destination static TelnetWebServer TelnetWebServer service HTTPObj HTTPObj

nat (inside,outside) source dynamic myInsideNetwork PATaddress2 interface ipv6 destination static TelnetWebServer TelnetWebServer service HTTPObj HTTPObj







object network LAN
 subnet 10.10.10.0 255.255.255.0

object network NAT-POOL
 range 1.1.1.1 1.1.1.2

object network REMOTE-NETWORK
 subnet 3.3.3.0 255.255.255.0

object-group network THEGROUP
 network-object host 127.0.0.1


nat (inside,outside) after-auto source dynamic LAN NAT-POOL  destination static REMOTE-NETWORK REMOTE-NETWORK

nat (inside,outside) after-auto source dynamic LAN NAT-POOL interface destination static REMOTE-NETWORK REMOTE-NETWORK

nat (inside,outside) after-auto source dynamic LAN NAT-POOL interface ipv6 destination static REMOTE-NETWORK REMOTE-NETWORK


nat (outside,inside) after-auto source dynamic THEGROUP THEGROUP description nat with groups



object-group network MAPPED-GROUP
 network-object host 1.2.3.4

nat (inside,outside) source static any any destination static MAPPED-GROUP MAPPED-GROUP no-proxy-arp
nat (inside,outside) source static MAPPED-GROUP MAPPED-GROUP



nat (inside) 1 10.10.10.0 255.255.255.0
nat (inside) 0 0.0.0.0 0.0.0.0

".
Definition asa_network_object_dynamic_nat : pystr :=
  u "
interface inside
!

interface outside
!

interface dmz
!



object network my-range-obj
 range 10.2.2.1 10.2.2.10

object network my-inside-net
 subnet 192.168.2.0 255.255.255.0
 nat (inside,outside) dynamic my-range-obj

".
Definition asa_nat_and_interfaces : pystr :=
  u "
interface inside
!

interface outside
!

interface dmz
!




object network LAN
 subnet 10.10.10.0 255.255.255.0

object network NAT-POOL
 range 1.1.1.1 1.1.1.2

object network REMOTE-NETWORK
 subnet 3.3.3.0 255.255.255.0

object-group network THEGROUP
 network-object host 127.0.0.1


nat (inside,outside) after-auto source dynamic LAN NAT-POOL  destination static REMOTE-NETWORK REMOTE-NETWORK

nat (inside,outside) after-auto source dynamic LAN NAT-POOL interface destination static REMOTE-NETWORK REMOTE-NETWORK

nat (inside,outside) after-auto source dynamic LAN NAT-POOL interface ipv6 destination static REMOTE-NETWORK REMOTE-NETWORK


nat (outside,inside) after-auto source dynamic THEGROUP THEGROUP description nat with groups
".
Definition asa_twice_dynamic_pat : pystr :=
  u "
interface inside
!

interface outside
!

interface dmz
!





object network INSIDE_NW
 subnet 192.168.1.0 255.255.255.0

object network PAT_POOL
 range 209.165.200.225 209.165.200.254

object network TELNET_SVR
 host 209.165.201.23

object service TELNET
 service tcp destination eq 23

object network SERVERS
 subnet 203.0.113.0 255.255.255.0

nat (inside,outside) source dynamic INSIDE_NW interface destination static TELNET_SVR TELNET_SVR service TELNET TELNET

nat (inside,outside) source dynamic INSIDE_NW pat-pool PAT_POOL destination static SERVERS SERVERS

nat (inside,outside) source dynamic INSIDE_NW pat-pool PAT_POOL interface destination static SERVERS SERVERS

nat (inside,outside) source dynamic INSIDE_NW pat-pool PAT_POOL interface ipv6 destination static SERVERS SERVERS

".
Definition asa_twice_static_nat : pystr :=
  u "
interface inside
!

interface outside
!

interface dmz
!




object service FTP_PASV_PORT_RANGE
 service tcp source range 65000 65004

object network HOST_FTP_SERVER
 host 192.168.10.100

nat (inside,outside) source static HOST_FTP_SERVER interface service FTP_PASV_PORT_RANGE FTP_PASV_PORT_RANGE
".
Definition asa_twice_dynamic_pat_dest_host_port : pystr :=
  u "
interface inside
!

interface outside
!

interface dmz
!


object network myInsideNetwork
 subnet 10.1.2.0 255.255.255.0

object network TelnetWebServer
 host 209.165.201.11

object network PATaddress1
 host 209.165.202.129

object service TelnetObj
 service tcp destination eq telnet



nat (inside,outside) source dynamic myInsideNetwork PATaddress1  destination static TelnetWebServer TelnetWebServer service TelnetObj TelnetObj

nat (inside,outside) source dynamic myInsideNetwork PATaddress1 interface destination static TelnetWebServer TelnetWebServer service TelnetObj TelnetObj

nat (inside,outside) source dynamic myInsideNetwork PATaddress1 interface ipv6 destination static TelnetWebServer TelnetWebServer service TelnetObj TelnetObj


object network PATaddress2
 host 209.165.202.130

object service HTTPObj
 service tcp destination eq http


nat (inside,outside) source dynamic myInsideNetwork PATaddress2  destination static TelnetWebServer TelnetWebServer service HTTPObj HTTPObj

nat (inside,outside) source dynamic myInsideNetwork PATaddress2 interface destination static TelnetWebServer TelnetWebServer service HTTPObj HTTPObj

nat (inside,outside) source dynamic myInsideNetwork PATaddress2 interface ipv6 destination static TelnetWebServer TelnetWebServer service HTTPObj HTTPObj

".
Definition asa_network_object_dynamic_nat_backup_pat : pystr :=
  u "
interface inside
!

interface outside
!

interface dmz
!



object network nat-range1
 range 10.10.10.10 10.10.10.20

object network pat-ip1
 host 10.10.10.21

object-group network nat-pat-grp
 network-object object nat-range1
 network-object object pat-ip1

object network my_net_obj5
 subnet 10.76.11.0 255.255.255.0
 nat (inside,outside) dynamic nat-pat-grp interface
".
Definition asa_network_object_nat_single_definition : pystr :=
  u "
interface inside
!

interface outside
!

interface dmz
!



object network my-host-obj2-identity
 host 10.1.1.1

object network my-host-obj2
 host 10.1.1.1

object network my-host-obj2
 nat (inside,outside) static my-host-obj2-identity

".
Definition asa_network_object_nat_any : pystr :=
  u "
object network my-host-nat-any-0
 nat (any,any) static 127.0.0.1
".
Definition asa_nat_mapped_network_group : pystr :=
  u "
interface inside
!

interface outside
!

interface dmz
!


object-group network MAPPED-GROUP
 network-object host 1.2.3.4

nat (inside,outside) source static any any destination static MAPPED-GROUP MAPPED-GROUP no-proxy-arp
nat (inside,outside) source static MAPPED-GROUP MAPPED-GROUP
".
Definition asa_nat_fwsm_single : pystr :=
  u "
interface inside
!

interface outside
!

interface dmz
!


nat (inside) 1 10.10.10.0 255.255.255.0
nat (inside) 0 0.0.0.0 0.0.0.0
".
Definition asa_object_group_icmp_whitespace_suffix : pystr :=
  u "
object-group service ServiceGroupICMPWhiteSpaceSuffix
 service-object icmp 

object service wireguard
 service udp destination eq 51820

object-group service ServiceGroupWithObjectWhitespace
 service-object object wireguard 
".
Definition asa_ignore : pystr :=
  u "
sla monitor 100
 type echo protocol ipIcmpEcho DNS1 interface outside
 timeout 1000
 frequency 3
sla monitor schedule 100 life forever start-time now

password-policy minimum-length 12

dynamic-access-policy-record Policy_Openvpn_Group
dynamic-access-policy-record DfltAccessPolicy
 action terminate

ldap attribute-map carlomag
  map-name  member Group-Policy
  map-value member cn=cn0,dc=uni-hannover,dc=de luis

vpdn group htp request dialout pppoe

url-cache dst 1

management-access inside

ssh pubkey-chain
  server 127.0.0.1
    key-hash sha256 ce:a4:65:28:91:26:14:4d:40:ae:3a:4c:68:3e:d8:ff:0c:a1:e5:b5:42:99:e2:6c:84:c6:92:39:74:cd:ec:0f

app-agent heartbeat interval 1000 retry-count 3

license smart
 feature tier standard
 feature strong-encryption

service-module 0 keepalive-timeout 4
service-module 0 keepalive-counter 6
service-module ips keepalive-timeout 4
service-module ips keepalive-counter 6
service-module cxsc keepalive-timeout 4
service-module cxsc keepalive-counter 6
service-module sfr keepalive-timeout 4
service-module sfr keepalive-counter 6

command-alias exec sclht show conn lon | i bytes [0-9][0-9][0-9][0-9][0-9][0-9][0-9][0-9]
".
Definition asa_whole : pystr :=
  u "
: ignored lines

ASA Version 9.1(5)12 <context>


command-alias exec sclht show conn lon | i bytes [0-9][0-9][0-9][0-9][0-9][0-9][0-9][0-9]


hostname test-config
domain-name example.org


service-module 0 keepalive-timeout 4
service-module 0 keepalive-counter 6
service-module ips keepalive-timeout 4
service-module ips keepalive-counter 6
service-module cxsc keepalive-timeout 4
service-module cxsc keepalive-counter 6
service-module sfr keepalive-timeout 4
service-module sfr keepalive-counter 6



license smart
 feature tier standard
 feature strong-encryption



names
name 127.1.0.1 localhorst
name 127.1.0.2 localbernd description localbernd
name 192.168.5.1 betternet
name fe80::2aa:bbcc:ddee:ff04 v6name
!



interface Ethernet0
 description this interface is like eth0
 nameif outside
 security-level 0
 ip address 10.1.1.1 255.255.255.240 standby 10.1.1.2
!


interface IfWithTrailingWS
 ip address 1.1.1.1 255.255.255.128 standby 2.2.2.2 
!



interface inside
!

interface outside
!

interface dmz
!






time-range time_range_test0
 absolute start 23:59 15 April 2010
!

time-range time_range_test1
 absolute start 23:59 15 April 2010 end 23:59 16 April 2010
!


time-range time_range_test2
 periodic daily 12:00 to 13:00
 periodic Monday 13:00 to Tuesday 14:00
 no periodic
 no absolute
!

time-range anytime
 absolute end 23:59 15 April 2010
!

time-range emptyrange
!




object service TCPSourceService
 service tcp source range 1 100
 description low ports

object service TCPBothService
" ++
  u " service tcp source eq 100 destination eq 100

object service ICMPEchoService0
 service icmp echo

object service ICMPEchoService1
 service icmp 8 21

object service ICMPEchoService2
 service icmp echo-reply

object service ICMPEchoService3
 service icmp

object service ICMPObjectWithTypeAndCode
 service icmp echo 0

!object-group service ServiceProtocolByCode
! service 41

!object-group service ServiceProtocolByName
! service eigrp



object service ServiceByInt
 service 6



object-group icmp-type ICMPGroup
 description icmp group
 icmp-object unreachable
 icmp-object 30

object-group icmp-type NestMe0-IG
 icmp-object unreachable

object-group icmp-type NestMe1-IG
 icmp-object 20

object-group icmp-type Nested0-IG
 group-object NestMe0-IG
 group-object NestMe1-IG

object-group service ServiceGroupICMPWhiteSpaceSuffix
 service-object icmp 

object service wireguard
 service udp destination eq 51820

object-group service ServiceGroupWithObjectWhitespace
 service-object object wireguard 



object-group service p0123 tcp
 port-object eq 0
 port-object eq 1
 port-object eq 2
 port-object eq 3

object-group service p4567 tcp
 port-object eq 4
 port-object eq 5
 port-object eq 6
 port-object eq 7

object-group service p89
 service-object tcp source lt 8
 service-object tcp destination gt  9

object-group service p01
 service-object tcp source eq 0
 service-object tcp source eq 1

object-group service p23
 service-object tcp destination eq 2
 service-object tcp destination eq 3

object-group service p01p23
" ++
  u " service-object tcp source eq 0 destination eq 1
 service-object tcp source eq 1 destination eq 2

object-group service p32 tcp
 port-object eq 1
 port-object eq 2
 port-object eq 3
 port-object eq 4
 port-object eq 5
 port-object eq 6
 port-object eq 7
 port-object eq 8
 port-object eq 9
 port-object eq 10
 port-object eq 11
 port-object eq 12
 port-object eq 13
 port-object eq 14
 port-object range 1 15
 port-object eq 16



object-group service AllKnownNames2
 service-object tcp source eq aol
 service-object tcp source eq bgp
 service-object udp source eq biff
 service-object udp source eq bootpc
 service-object udp source eq bootps
 service-object tcp source eq chargen
 service-object tcp source eq citrix-ica
 service-object tcp source eq cmd
 service-object tcp source eq ctiqbe
 service-object tcp source eq daytime
 service-object tcp source eq discard
 service-object udp source eq discard
 service-object udp source eq dnsix
 service-object tcp source eq domain
 service-object udp source eq domain
 service-object tcp source eq echo
 service-object udp source eq echo
 service-object icmp echo
 service-object icmp echo-reply
 service-object tcp source eq exec
 service-object tcp source eq finger
 service-object tcp source eq ftp
 service-object tcp source eq ftp-data
 service-object tcp source eq gopher
 service-object tcp source eq h323
 service-object tcp source eq hostname
 service-object tcp source eq https
 service-object tcp source eq ident
 service-object tcp source eq imap4
" ++
  u " service-object icmp information-reply
 service-object icmp information-request
 service-object tcp source eq irc
 service-object udp source eq isakmp
 service-object tcp source eq kerberos
 service-object udp source eq kerberos
 service-object tcp source eq klogin
 service-object tcp source eq kshell
 service-object tcp source eq ldap
 service-object tcp source eq ldaps
 service-object tcp source eq login
 service-object tcp source eq lotusnotes
 service-object tcp source eq lpd
 service-object icmp mask-reply
 service-object icmp mask-request
 service-object udp source eq mobile-ip
 service-object icmp mobile-redirect
 service-object udp source eq nameserver
 service-object udp source eq netbios-dgm
 service-object udp source eq netbios-ns
 service-object tcp source eq netbios-ssn
 service-object tcp source eq nntp
 service-object udp source eq ntp
 service-object icmp parameter-problem
 service-object tcp source eq pcanywhere-data
 service-object udp source eq pcanywhere-status
 service-object tcp source eq pim-auto-rp
 service-object udp source eq pim-auto-rp
 service-object tcp source eq pop2
 service-object tcp source eq pop3
 service-object tcp source eq pptp
 service-object udp source eq radius
 service-object udp source eq radius-acct
 service-object icmp redirect
 service-object udp source eq rip
 service-object icmp router-advertisement
 service-object icmp router-solicitation
 service-object udp source eq secureid-udp
 service-object tcp source eq smtp
 service-object udp source eq snmp
" ++
  u " service-object udp source eq snmptrap
 service-object icmp source-quench
 service-object tcp source eq sqlnet
 service-object tcp source eq ssh
 service-object tcp source eq sunrpc
 service-object udp source eq sunrpc
 service-object udp source eq syslog
 service-object tcp source eq tacacs
 service-object udp source eq tacacs
 service-object tcp source eq talk
 service-object udp source eq talk
 service-object tcp source eq telnet
 service-object udp source eq tftp
 service-object udp source eq time
 service-object icmp time-exceeded
 service-object icmp timestamp-reply
 service-object icmp timestamp-request
 service-object icmp traceroute
 service-object icmp unreachable
 service-object tcp source eq uucp
 service-object udp source eq who
 service-object tcp source eq whois
 service-object tcp source eq www
 service-object udp source eq xdmcp







object-group service ServiceGroupWithProtocol tcp
 description www & https
 port-object eq www
 port-object eq https


object-group service NestMe0-SG udp
 port-object eq domain

object-group service NestMe1-SG udp
 port-object eq bootps
 port-object range 1024 2048


object-group service Nested0-SG udp
 group-object NestMe0-SG
 group-object NestMe1-SG


object-group service Nested1-SG udp
 group-object Nested0-SG

object-group service ServiceGroupForNesting
 service-object udp destination eq 53

object-group service ServiceGroupWithOutProtocol
 description PR 9.3 service group
 service-object tcp destination eq www
 service-object object TCPSourceService
" ++
  u " service-object object TCPBothService
 service-object object ICMPEchoService0
 service-object object ICMPEchoService1
 service-object object ICMPEchoService2
 service-object object ICMPEchoService3
 service-object icmp echo 12
 group-object ServiceGroupForNesting

object-group service ServiceGroupWithWhitespace
 service-object tcp destination eq 9876
 service-object udp destination eq 9876

object-group service ICMPServiceGroupWithOutCode
 service-object icmp echo
 service-object icmp 8

object-group service ICMPServiceGroupWithCode
 service-object icmp echo 12
 service-object icmp 8 12

object-group service ICMP_Any
 description ICMP Any Type Any Code
 service-object icmp alternate-address
 service-object icmp conversion-error
 service-object icmp echo
 service-object icmp echo-reply
 service-object icmp information-reply
 service-object icmp information-request
 service-object icmp mask-reply
 service-object icmp mask-request
 service-object icmp mobile-redirect
 service-object icmp parameter-problem
 service-object icmp redirect
 service-object icmp router-advertisement
 service-object icmp router-solicitation
 service-object icmp source-quench
 service-object icmp time-exceeded
 service-object icmp timestamp-reply
 service-object icmp timestamp-request
 service-object icmp traceroute
 service-object icmp unreachable
 service-object icmp6 echo
 service-object icmp6 echo-reply
 service-object icmp6 membership-query
 service-object icmp6 membership-reduction
 service-object icmp6 membership-report
" ++
  u " service-object icmp6 neighbor-advertisement
 service-object icmp6 neighbor-redirect
 service-object icmp6 neighbor-solicitation
 service-object icmp6 packet-too-big
 service-object icmp6 parameter-problem
 service-object icmp6 router-advertisement
 service-object icmp6 router-renumbering
 service-object icmp6 router-solicitation
 service-object icmp6 time-exceeded
 service-object icmp6 unreachable
 service-object icmp

object-group service ObjectGroupWithIPServiceByName
 service-object ip
 service-object icmp
 service-object tcp destination eq www
 service-object tcp destination eq https
 service-object tcp destination eq ssh




object-group service ObjectGroupWithIPServiceByInteger
 service-object 17



object network NetworkObjectRange
 range 10.0.0.1 10.0.0.4
 description Network Range Object

object network Network6RangeObject
 range ::1 ::2

object network NetworkObjectFQDN
 fqdn example.com

object network NetworkObjectFQDNv4
 fqdn v4 example.com

object network NetworkObjectFQDNv6
 fqdn v6 example.com

object network NetworkObjectHost
 host 127.4.0.1

object network NetworkObjectSubnet
 subnet 127.0.1.0 255.255.255.0

object network Network6SubnetObject
 subnet ::/127

:object network NetworkObjectName
:  host localbernd

object network NetworkObjectEmpty


object network v6NetworkObject
 host fe80::2aa:bbcc:ddee:ff03

object network theNATObject
 host 1.1.1.1




object-group network NetworkGroupHost
 network-object host 127.0.0.1

object-group network NetworkGroupNet
" ++
  u " network-object 127.0.0.1 255.255.255.0

object-group network NetworkGroupAlias
 network-object localbernd 255.255.255.0

object-group network NetworkGroupWithRecursion
 group-object NetworkGroupHost
 group-object NetworkGroupNet

object-group network NestMe0-NG
 network-object host localbernd

object-group network NestMe1-NG
 network-object host localhorst

object-group network NestMe2-NG
 network-object host 127.1.0.0

object-group network Nested0-NG
 description nested
 group-object NestMe2-NG
 group-object NestMe0-NG
 group-object NestMe1-NG

object-group network NetworkObjectsGroup0
 network-object host 127.0.0.1

object-group network NetworkObjectsGroup
 network-object object NetworkObjectHost
 network-object object NetworkObjectSubnet
 network-object object NetworkObjectRange
 network-object object NetworkObjectFQDN
 network-object object NetworkObjectFQDNv4
 network-object object NetworkObjectFQDNv6
 group-object NetworkObjectsGroup0


object-group network v6NetworkGroup
 network-object host fe80::2aa:bbcc:ddee:ff04
 network-object object v6NetworkObject


object-group network NetworkGroupWithAllTypes
 description egal
 network-object host 127.1.0.0
 network-object object NetworkObjectFQDN
 network-object 127.0.0.0 255.255.255.0
 network-object localbernd 255.255.255.0
 network-object fe80::2aa:bbcc:ddee:ff03/124
 network-object v6name/124




object-group protocol NestMe0-PG
 protocol-object tcp

object-group protocol NestMe1-PG
 protocol-object udp
 protocol-object icmp
" ++
  u "
object-group protocol Nested0-PG
 description nested protocol group
 group-object NestMe0-PG
 group-object NestMe1-PG


access-list v6 extended permit tcp fe80::2aa:bbcc:ddee:ff01/64 fe80::2aa:bbcc:ddee:ff02/64
access-list v6 extended permit udp object-group v6NetworkGroup object v6NetworkObject
access-list v6 extended permit icmp any6 any6 echo

access-list outside_access_in extended permit udp 10.0.0.1 255.255.255.248 any4 range 32000 39999

access-list outside_access_in extended permit udp 10.0.0.1 255.255.255.248 any4 range 32000 39999

access-list outside_access_in remark permit tcp host 127.0.0.1 host 127.0.0.2
access-list outside_access_in extended permit tcp host 127.0.0.1 host 127.0.0.2

access-list outside_access_in remark permit tcp 127.0.0.1 255.255.255.0 127.0.0.2 255.255.255.0
access-list outside_access_in extended permit tcp 127.0.0.1 255.255.255.0 127.0.0.2 255.255.255.0

access-list outside_access_in remark permit tcp 127.0.0.1 255.255.255.0 eq 80 127.0.0.2 255.255.255.0
access-list outside_access_in extended permit tcp 127.0.0.1 255.255.255.0 eq 80 127.0.0.2 255.255.255.0

access-list outside_access_in remark permit tcp 127.0.0.1 255.255.255.0 eq 80 127.0.0.2 255.255.255.0 eq 81
access-list outside_access_in extended permit tcp 127.0.0.1 255.255.255.0 eq 80 127.0.0.2 255.255.255.0 eq 81

access-list outside_access_in remark permit tcp object-group NetworkGroupHost 127.0.0.1 255.255.255.0
access-list outside_access_in extended permit tcp object-group NetworkGroupHost 127.0.0.1 255.255.255.0
" ++
  u "
access-list outside_access_in remark permit tcp object-group NetworkGroupHost object-group NetworkGroupHost
access-list outside_access_in extended permit tcp object-group NetworkGroupHost object-group NetworkGroupHost

access-list outside_access_in remark permit tcp object-group NetworkGroupHost object-group Nested1-SG object-group NetworkGroupHost
access-list outside_access_in extended permit tcp object-group NetworkGroupHost object-group Nested1-SG object-group NetworkGroupHost

access-list outside_access_in remark permit tcp object-group NetworkGroupHost object-group NetworkGroupHost object-group Nested1-SG
access-list outside_access_in extended permit tcp object-group NetworkGroupHost object-group NetworkGroupHost object-group Nested1-SG


access-list outside_access_in remark permit tcp object-group NetworkGroupHost eq 80 object-group NetworkGroupWithRecursion
access-list outside_access_in extended permit tcp object-group NetworkGroupHost eq 80 object-group NetworkGroupWithRecursion

access-list outside_access_in remark permit tcp object-group NetworkGroupHost object-group NetworkGroupWithRecursion eq 80
access-list outside_access_in extended permit tcp object-group NetworkGroupHost object-group NetworkGroupWithRecursion eq 80

access-list outside_access_in remark permit tcp object-group NetworkGroupHost eq 80 object-group NetworkGroupWithRecursion eq 81
access-list outside_access_in extended permit tcp object-group NetworkGroupHost eq 80 object-group NetworkGroupWithRecursion eq 81
" ++
  u "
access-list outside_access_in remark permit icmp host 127.0.0.1 host 127.0.0.1 object-group ICMPGroup
access-list outside_access_in extended permit icmp host 127.0.0.1 host 127.0.0.1 object-group ICMPGroup


access-list outside_access_in remark permit tcp host 127.0.0.1 range 80 90 host 127.0.0.1
access-list outside_access_in extended permit tcp host 127.0.0.1 range 80 90 host 127.0.0.1

access-list outside_access_in remark permit object-group ServiceGroupWithOutProtocol any4 any
access-list outside_access_in extended permit object-group ServiceGroupWithOutProtocol any4 any

access-list outside_access_in remark permit tcp any4 any4 log default
access-list outside_access_in extended permit tcp any4 any4 log default

access-list outside_access_in remark permit tcp any4 any4 log time-range anytime
access-list outside_access_in extended permit tcp any4 any4 log time-range anytime

access-list outside_access_in remark permit tcp any4 any4 inactive
access-list outside_access_in extended permit tcp any4 any4 inactive

access-list outside_access_in remark permit icmp any4 any4 echo
access-list outside_access_in extended permit icmp any4 any4 echo

access-list outside_access_in extended permit icmp host 192.168.0.0 host 192.168.0.0 echo

access-list inside_access_out remark deny ip any4 any
access-list inside_access_out extended deny ip any4 any

access-list inside_access_out remark deny tcp any4 any
access-list inside_access_out extended deny tcp any4 any

access-list inside_access_out remark permit tcp localhorst 255.255.255.255 any
" ++
  u "access-list inside_access_out extended permit tcp localhorst 255.255.255.255 any

access-list inside_access_out remark permit tcp host localbernd any
access-list inside_access_out extended permit tcp host localbernd any

access-list inside_access_out extended permit object-group Nested0-PG host localbernd any

access-list inside_access_out extended permit tcp host localbernd any4 eq https
access-list inside_access_out extended permit tcp host localbernd any4 range ftp https

access-list outside_access_in remark multi
access-list outside_access_in remark line
access-list outside_access_in remark remark
access-list outside_access_in extended permit tcp any4 any


access-list outside_access_in remark permit object-group ServiceGroupWithOutProtocol any4 any
access-list outside_access_in extended permit object-group ServiceGroupWithOutProtocol any4 any

access-list outside_access_in remark permit object ICMPEchoService0 any4 any
access-list outside_access_in extended permit object ICMPEchoService0 any4 any

access-list outside_access_in remark permit tcp object-group NetworkObjectsGroup any
access-list outside_access_in extended permit tcp object-group NetworkObjectsGroup any

access-list outside_access_in remark permit udp any4 any4 eq 53
access-list outside_access_in extended permit udp any4 any4 eq 53

access-list outside_access_in remark permit tcp object NetworkObjectHost any
access-list outside_access_in extended permit tcp object NetworkObjectHost any

access-list outside_access_in remark permit object-group Nested0-PG host 127.0.0.2 host 127.0.0.2 time-range anytime
" ++
  u "access-list outside_access_in extended permit object-group Nested0-PG host 127.0.0.2 host 127.0.0.2 time-range anytime

access-list outside_access_in remark permit icmp host 127.0.0.2 host 127.0.0.2 object-group ICMPGroup
access-list outside_access_in extended permit icmp host 127.0.0.2 host 127.0.0.2 object-group ICMPGroup

access-list outside_access_in remark permit udp host 127.0.0.2 host 127.0.0.2 object-group Nested0-SG
access-list outside_access_in extended permit udp host 127.0.0.2 host 127.0.0.2 object-group Nested0-SG

access-list outside_access_in remark permit object-group ServiceGroupWithOutProtocol host 127.0.0.2 host 127.0.0.2
access-list outside_access_in extended permit object-group ServiceGroupWithOutProtocol host 127.0.0.2 host 127.0.0.2

access-list outside_access_in remark permit udp host localbernd host 127.0.0.2 eq 51
access-list outside_access_in extended permit udp host localbernd host 127.0.0.2 eq 51


access-list interface_test extended permit udp interface eth0 any eq 53
access-list interface_icmp extended permit icmp any any


access-group outside_access_in in interface outside
access-group inside_access_out global

access-list outside_access_in remark permit tcp 127.0.0.1 255.255.255.0 127.0.0.1 255.255.255.192 eq 4711 time-range time_range_test0 inactive
access-list outside_access_in extended permit tcp 127.0.0.1 255.255.255.0 127.0.0.1 255.255.255.192 eq 4711 time-range time_range_test0 inactive

access-list Neuberger-GLT-Fernwartung_splitTunnelAcl standard permit 172.16.200.0 255.255.255.0
" ++
  u "
access-list outside_access_in remark multi
access-list outside_access_in remark line
access-list outside_access_in remark remark without rule



access-list webvpn_out webtype permit url ssh://mac.gflyg.se log default
access-list webvpn_out webtype permit tcp host 127.0.0.1 range 80 81 log default
access-list webvpn_out webtype permit tcp any lt 81 log default




access-list outside_ether_access_in ethertype permit bpdu
access-list inside_ether_access_in ethertype remark
access-list inside_ether_access_in ethertype permit bpdu



access-list outside_ether_access_in extended deny ip any any log
access-list outside_ether_access_in extended deny ip any any log 5 default
access-list outside_ether_access_in extended deny ip any any log default 5
access-list outside_ether_access_in extended deny ip any any log debugging 5 interval 300



access-list outside_ether_access_in extended deny tcp any any
access-list outside_ether_access_in extended deny udp any any



access-list access_in extended deny 0 any any
access-list access_in extended deny 10 any any
access-list access_in extended deny 255 any any



access-list ports extended permit tcp any object-group p0123 any object-group p4567
access-list ports extended permit tcp any object-group p32 any object-group p32
access-list ports extended permit object-group p89 any any
access-list ports extended permit object-group p01 any any
access-list ports extended permit object-group p23 any any
access-list ports extended permit object-group p01p23 any any
" ++
  u "






object network my-range-obj
 range 10.2.2.1 10.2.2.10

object network my-inside-net
 subnet 192.168.2.0 255.255.255.0
 nat (inside,outside) dynamic my-range-obj





object network nat-range1
 range 10.10.10.10 10.10.10.20

object network pat-ip1
 host 10.10.10.21

object-group network nat-pat-grp
 network-object object nat-range1
 network-object object pat-ip1

object network my_net_obj5
 subnet 10.76.11.0 255.255.255.0
 nat (inside,outside) dynamic nat-pat-grp interface




object network IPv4_NAT_RANGE
 range 209.165.201.1 209.165.201.30

object network IPv4_PAT
 host 209.165.201.31

object-group network IPv4_GROUP
 network-object object IPv4_NAT_RANGE
 network-object object IPv4_PAT

object network my_net_obj5
 subnet 2001:DB8::/96
 nat (inside,outside) dynamic IPv4_GROUP interface




object network my-inside-net
 subnet 192.168.2.0 255.255.255.0
 nat (inside,outside) dynamic 10.2.2.2




object network my-inside-net
 subnet 192.168.2.0 255.255.255.0
 nat (inside,outside) dynamic interface




object network IPv4_POOL
 range 203.0.113.1 203.0.113.254

object network IPv6_INSIDE
 subnet 2001:DB8::/96
 nat (inside,outside) dynamic pat-pool IPv4_POOL





object network my-host-obj1
 host 10.1.1.1
 nat (inside,outside) static 10.2.2.2 dns





object network my-mapped-obj
 host 10.2.2.2

object network my-host-obj1
 host 10.1.1.1
 nat (inside,outside) static my-mapped-obj






object network my-ftp-server
 host 10.1.1.1
 nat (inside,outside) static interface service tcp 21 2121
" ++
  u "



object network inside_v4_v6
 subnet 10.1.1.0 255.255.255.0
 nat (inside,outside) static 2001:DB8::/96




object network inside_v6
 subnet 2001:DB8:AAAA::/96
 nat (inside,outside) static 2001:DB8:BBBB::/96





object network my-host-obj1
 host 10.1.1.1
 nat (inside,outside) static 10.1.1.1






object network my-host-obj1-identity
 host 10.1.1.1

object network my-host-obj1
 host 10.1.1.1
 nat (inside,outside) static my-host-obj1-identity




object network my-host-obj2-identity
 host 10.1.1.1

object network my-host-obj2
 host 10.1.1.1

object network my-host-obj2
 nat (inside,outside) static my-host-obj2-identity




object network my-host-nat-any-0
 nat (any,any) static 127.0.0.1





object network INSIDE_NW
 subnet 10.1.1.0 255.255.255.0

object network MAPPED_1
 range 209.165.200.225 209.165.200.254

object network MAPPED_2
 range 209.165.202.129 209.165.202.158

object network SERVERS_1
 subnet 209.165.201.0 255.255.255.224

object network SERVERS_2
 subnet 203.0.113.0 255.255.255.0

nat (inside,outside) source dynamic INSIDE_NW MAPPED_1 destination static SERVERS_1 SERVERS_1

nat (inside,outside) source dynamic INSIDE_NW MAPPED_2 destination static SERVERS_2 SERVERS_2






object network INSIDE_NW
 subnet 2001:DB8:AAAA::/96

object network MAPPED_1
 range 209.165.200.225 209.165.200.254

object network MAPPED_2
 range 209.165.202.129 209.165.202.158

object network SERVERS_1
 subnet 209.165.201.0 255.255.255.224

object network SERVERS_2
 subnet 203.0.113.0 255.255.255.0
" ++
  u "
nat (inside,outside) source dynamic INSIDE_NW MAPPED_1 destination static SERVERS_1 SERVERS_1
nat (inside,outside) source dynamic INSIDE_NW MAPPED_2 destination static SERVERS_2 SERVERS_2







object network INSIDE_NW
 subnet 192.168.1.0 255.255.255.0

object network PAT_POOL
 range 209.165.200.225 209.165.200.254

object network TELNET_SVR
 host 209.165.201.23

object service TELNET
 service tcp destination eq 23

object network SERVERS
 subnet 203.0.113.0 255.255.255.0

nat (inside,outside) source dynamic INSIDE_NW interface destination static TELNET_SVR TELNET_SVR service TELNET TELNET

nat (inside,outside) source dynamic INSIDE_NW pat-pool PAT_POOL destination static SERVERS SERVERS

nat (inside,outside) source dynamic INSIDE_NW pat-pool PAT_POOL interface destination static SERVERS SERVERS

nat (inside,outside) source dynamic INSIDE_NW pat-pool PAT_POOL interface ipv6 destination static SERVERS SERVERS





object network INSIDE_NW
 subnet 192.168.1.0 255.255.255.0

object network PAT_POOL
 range 2001:DB8:AAAA::1 2001:DB8:AAAA::200

object network TELNET_SVR
 host 2001:DB8::23

object service TELNET
 service tcp destination eq 23

object network SERVERS
 subnet 2001:DB8:AAAA::/96

nat (inside,outside) source dynamic INSIDE_NW interface ipv6 destination static TELNET_SVR TELNET_SVR service TELNET TELNET

nat (inside,outside) source dynamic INSIDE_NW pat-pool PAT_POOL  destination static SERVERS SERVERS

nat (inside,outside) source dynamic INSIDE_NW pat-pool PAT_POOL interface destination static SERVERS SERVERS
" ++
  u "
nat (inside,outside) source dynamic INSIDE_NW pat-pool PAT_POOL interface ipv6 destination static SERVERS SERVERS








object service FTP_PASV_PORT_RANGE
 service tcp source range 65000 65004

object network HOST_FTP_SERVER
 host 192.168.10.100

nat (inside,outside) source static HOST_FTP_SERVER interface service FTP_PASV_PORT_RANGE FTP_PASV_PORT_RANGE






object network INSIDE_NW
 subnet 2001:DB8:AAAA::/96

object network MAPPED_IPv6_NW
 subnet 2001:DB8:BBBB::/96

object network OUTSIDE_IPv6_NW
 subnet 2001:DB8:CCCC::/96

object network OUTSIDE_IPv4_NW
 subnet 10.1.1.0 255.255.255.0

object network MAPPED_IPv4_POOL
 range 10.1.2.1 10.1.2.254

nat (inside,outside) source static INSIDE_NW MAPPED_IPv6_NW destination static OUTSIDE_IPv6_NW OUTSIDE_IPv6_NW


nat (inside,outside) source dynamic INSIDE_NW pat-pool MAPPED_IPv4_POOL  destination static OUTSIDE_IPv4_NW OUTSIDE_IPv4_NW

nat (inside,outside) source dynamic INSIDE_NW pat-pool MAPPED_IPv4_POOL interface destination static OUTSIDE_IPv4_NW OUTSIDE_IPv4_NW

nat (inside,outside) source dynamic INSIDE_NW pat-pool MAPPED_IPv4_POOL interface ipv6 destination static OUTSIDE_IPv4_NW OUTSIDE_IPv4_NW





object network myInsideNetwork
 subnet 10.1.2.0 255.255.255.0

object network DMZnetwork1
 subnet 209.165.201.0 255.255.255.224

object network PATaddress1
 host 209.165.202.129


nat (inside,dmz) source dynamic myInsideNetwork PATaddress1  destination static DMZnetwork1 DMZnetwork1

nat (inside,dmz) source dynamic myInsideNetwork PATaddress1 interface destination static DMZnetwork1 DMZnetwork1
" ++
  u "
nat (inside,dmz) source dynamic myInsideNetwork PATaddress1 interface ipv6 destination static DMZnetwork1 DMZnetwork1


object network DMZnetwork2
 subnet 209.165.200.224 255.255.255.224

object network PATaddress2
 host 209.165.202.130


nat (inside,dmz) source dynamic myInsideNetwork PATaddress2  destination static DMZnetwork2 DMZnetwork2

nat (inside,dmz) source dynamic myInsideNetwork PATaddress2 interface destination static DMZnetwork2 DMZnetwork2

nat (inside,dmz) source dynamic myInsideNetwork PATaddress2 interface ipv6 destination static DMZnetwork2 DMZnetwork2





object network myInsideNetwork
 subnet 10.1.2.0 255.255.255.0

object network TelnetWebServer
 host 209.165.201.11

object network PATaddress1
 host 209.165.202.129

object service TelnetObj
 service tcp destination eq telnet



nat (inside,outside) source dynamic myInsideNetwork PATaddress1  destination static TelnetWebServer TelnetWebServer service TelnetObj TelnetObj

nat (inside,outside) source dynamic myInsideNetwork PATaddress1 interface destination static TelnetWebServer TelnetWebServer service TelnetObj TelnetObj

nat (inside,outside) source dynamic myInsideNetwork PATaddress1 interface ipv6 destination static TelnetWebServer TelnetWebServer service TelnetObj TelnetObj


object network PATaddress2
 host 209.165.202.130

object service HTTPObj
 service tcp destination eq http


nat (inside,outside) source dynamic myInsideNetwork PATaddress2  destination static TelnetWebServer TelnetWebServer service HTTPObj HTTPObj
" ++
  u "
nat (inside,outside) source dynamic myInsideNetwork PATaddress2 interface destination static TelnetWebServer TelnetWebServer service HTTPObj HTTPObj

nat (inside,outside) source dynamic myInsideNetwork PATaddress2 interface ipv6 destination static TelnetWebServer TelnetWebServer service HTTPObj HTTPObj







object network LAN
 subnet 10.10.10.0 255.255.255.0

object network NAT-POOL
 range 1.1.1.1 1.1.1.2

object network REMOTE-NETWORK
 subnet 3.3.3.0 255.255.255.0

object-group network THEGROUP
 network-object host 127.0.0.1


nat (inside,outside) after-auto source dynamic LAN NAT-POOL  destination static REMOTE-NETWORK REMOTE-NETWORK

nat (inside,outside) after-auto source dynamic LAN NAT-POOL interface destination static REMOTE-NETWORK REMOTE-NETWORK

nat (inside,outside) after-auto source dynamic LAN NAT-POOL interface ipv6 destination static REMOTE-NETWORK REMOTE-NETWORK


nat (outside,inside) after-auto source dynamic THEGROUP THEGROUP description nat with groups



object-group network MAPPED-GROUP
 network-object host 1.2.3.4

nat (inside,outside) source static any any destination static MAPPED-GROUP MAPPED-GROUP no-proxy-arp
nat (inside,outside) source static MAPPED-GROUP MAPPED-GROUP



nat (inside) 1 10.10.10.0 255.255.255.0
nat (inside) 0 0.0.0.0 0.0.0.0




object-group network Leitwarte-GLT-Home
 network-object host 172.16.204.32
 network-object host 172.16.204.33

nat (outside,inside) after-auto source dynamic Leitwarte-GLT-Home Leitwarte-GLT-Home description temp Eckhard - Heimarbeit - 20121217-SK
" ++
  u "


app-agent heartbeat interval 1000 retry-count 3


ssh pubkey-chain
  server 127.0.0.1
    key-hash sha256 ce:a4:65:28:91:26:14:4d:40:ae:3a:4c:68:3e:d8:ff:0c:a1:e5:b5:42:99:e2:6c:84:c6:92:39:74:cd:ec:0f


management-access inside


url-cache dst 1



vpdn group htp request dialout pppoe



ldap attribute-map carlomag
  map-name  member Group-Policy
  map-value member cn=cn0,dc=uni-hannover,dc=de luis


dynamic-access-policy-record Policy_Openvpn_Group
dynamic-access-policy-record DfltAccessPolicy
 action terminate


password-policy minimum-length 12



sla monitor 100
 type echo protocol ipIcmpEcho DNS1 interface outside
 timeout 1000
 frequency 3
sla monitor schedule 100 life forever start-time now



".
Example corpus_asa : Forall (fun t => reads (asa_outcome t)) [asa_names; asa_interfaces; asa_interface_with_trailing_ws; asa_time_ranges; asa_object_service; asa_object_group_icmp_type; asa_object_group_service; asa_object_network; asa_object_group_network; asa_object_protocol; asa_access_list_rule_webtype; asa_access_list_rule_ethertype; asa_access_list_log_level; asa_access_list_rule_protocol; asa_access_list_rule_protocol_int; asa_access_list_rule_expand; asa_object_group_service_int; asa_object_service_int; asa_nat; asa_network_object_dynamic_nat; asa_nat_and_interfaces; asa_twice_dynamic_pat; asa_twice_static_nat; asa_twice_dynamic_pat_dest_host_port; asa_network_object_dynamic_nat_backup_pat; asa_network_object_nat_single_definition; asa_network_object_nat_any; asa_nat_mapped_network_group; asa_nat_fwsm_single; asa_object_group_icmp_whitespace_suffix; asa_ignore; asa_whole].
Proof. repeat (apply Forall_cons; [vm_compute; exact I|]). apply Forall_nil. Qed.

(** fwsmTestBlock.test_bad: every block of bad.jinja2 *)
Definition bad_names : pystr :=
  u "
names
name 427.1.0.1 localhorst
!
".
Definition bad_object_service_tcp_range : pystr :=
  u "
object service TCPSourceService
 service tcp source range 1 1000000
 description low ports
".
Definition bad_object_service_src_dst : pystr :=
  u "
object service TCPBothService
 service tcp source eq 100000
".
Definition bad_object_service_icmp : pystr :=
  u "
object service ICMPService
 service icmp 800
".
Definition bad_object_service_int : pystr :=
  u "
object service ServiceByInt
 service 600
".
Definition bad_object_group_icmp_type : pystr :=
  u "
object-group icmp-type ICMPGroup
 description icmp group
 icmp-object 3000
".
Definition bad_object_group_service_port_range : pystr :=
  u "
object-group service NestMe1-SG udp
 port-object range 1024 200048
".
Definition bad_object_group_service_port : pystr :=
  u "
object-group service Nested0-SG udp
 port-object eq 70000
".
Definition bad_object_group_service_port_range_order : pystr :=
  u "
object-group service Nested0-SG udp
 port-object range 2 1
".
Definition bad_object_group_service_service : pystr :=
  u "
object-group service ServiceGroupForNesting
 service-object udp destination eq 530000
".
Definition bad_object_group_service_int : pystr :=
  u "
object-group service ObjectGroupWithIPServiceByInteger
 service-object 400
".
Definition bad_object_network_range : pystr :=
  u "
object network NetworkObjectRange
 range 310.0.0.1 10.0.0.4
 description Network Range Object
".
Definition bad_object_network_range_order : pystr :=
  u "
object network NetworkObjectRange
 range 10.0.0.2 10.0.0.1
 description Network Range Object
".
Definition bad_object_network_subnet : pystr :=
  u "
object network NetworkObjectSubnet
 subnet 127.0.1.0 355.255.255.0
".
Definition bad_object_network_subnet6 : pystr :=
  u "
object network Network6SubnetObject
 subnet ::/129
".
Definition bad_object_group_network_host : pystr :=
  u "
object-group network NetworkGroupHost
 network-object host 427.0.0.1
".
Definition bad_object_group_network_network : pystr :=
  u "
object-group network NetworkGroupNet
 network-object 127.0.0.1 355.255.255.0
".
Definition bad_acl_rule_src_host : pystr :=
  u "
access-list outside_access_in extended permit tcp host 427.0.0.1 host 127.0.0.2
".
Definition bad_acl_rule_dst_host : pystr :=
  u "
access-list outside_access_in extended permit tcp host 127.0.0.1 host 999.0.0.2
".
Definition bad_acl_rule_src_port : pystr :=
  u "
access-list outside_access_in extended permit tcp host 127.0.0.1 eq 80000 127.0.0.2 255.255.255.0
".
Definition bad_acl_rule_src_port_range : pystr :=
  u "
access-list outside_access_in extended permit tcp host 127.0.0.1 range 1 80000 127.0.0.2 255.255.255.0
".
Example corpus_bad : Forall (fun t => fails (asa_outcome t)) [bad_names; bad_object_service_tcp_range; bad_object_service_src_dst; bad_object_service_icmp; bad_object_service_int; bad_object_group_icmp_type; bad_object_group_service_port_range; bad_object_group_service_port; bad_object_group_service_port_range_order; bad_object_group_service_service; bad_object_group_service_int; bad_object_network_range; bad_object_network_range_order; bad_object_network_subnet; bad_object_network_subnet6; bad_object_group_network_host; bad_object_group_network_network; bad_acl_rule_src_host; bad_acl_rule_dst_host; bad_acl_rule_src_port; bad_acl_rule_src_port_range].
Proof. repeat (apply Forall_cons; [vm_compute; exact I|]). apply Forall_nil. Qed.

(** iosTestBlock: every block of ios.jinja2 that is tested, and the whole file *)
Definition ios_interface_ipv6 : pystr :=
  u "
interface Example_If
 description Example Interface
 bandwidth 1000001
 ipv6 address FE80::A link-local
 ipv6 address 2001::A/125
 ipv6 traffic-filter Inside_IPv6 in
!
".
Definition ios_ipv6_access_list : pystr :=
  u "
ipv6 access-list proto_ipv6
 sequence 5 permit ipv6 FD00::/64 any
 sequence 10 permit ipv6 2000::/3 2000::/3
 sequence 20 permit ipv6 2000::/3 host 2001::102
 sequence 30 permit ipv6 host 2001::102 host 2000::
 sequence 170 deny ipv6 any 2001::/125
 sequence 180 permit ipv6 2001::/48 any
 sequence 190 deny ipv6 any any

ipv6 access-list proto_tcp
 sequence 60 permit tcp host FE80::156:0 host FE80::156:1 eq bgp
 sequence 70 permit tcp host FE80::156:0 eq bgp host FE80::156:1

ipv6 access-list proto_icmp
 sequence 50 permit icmp any any nd-na
 sequence 60 permit icmp any any nd-ns
 sequence 100 permit icmp 2000::/3 2000::/3 echo-request
 sequence 110 permit icmp 2000::/3 2000::/3 echo-reply
 sequence 150 permit icmp any any nd-na
 sequence 160 permit icmp any any nd-na
".
Definition ios_interface_switchport_trunk : pystr :=
  u "
interface trunked
 switchport mode trunk
 switchport trunk allowed vlan 1,4,7,9-11
 switchport trunk allowed vlan add 13
!
".
Definition ios_object_group_network : pystr :=
  u "


object-group network RFC5735
 description Special-Use IPv4 Addresses
 0.0.0.0 255.0.0.0
!



object-group network host
 description Special-Use IPv4 Addresses
 host 1.1.1.1
!


".
Definition ios_object_group_network_host : pystr :=
  u "
object-group network host
 description Special-Use IPv4 Addresses
 host 1.1.1.1
!
".
Definition ios_object_group_service_icmp : pystr :=
  u "
object-group service pingpong
 description icmp echo request & response
 icmp echo
 icmp echo-reply
!
".
Definition ios_ip_access_list : pystr :=
  u "
ip access-list extended Inside
 80 remark from the outerlands
 80 deny ip 1.1.1.1 0.0.0.255 any
!
".
Definition ios_whole : pystr :=
  u "version 12.4

hostname ios
ip domain name example.org

interface Example_If
 description Example Interface
 bandwidth 1000001
 ip address 127.0.0.1 255.255.254.0 secondary
 ip address 127.0.0.2 255.255.254.0
 ip access-group example_out in
 ip access-group 102 out
!


interface Example_If
 description Example Interface
 bandwidth 1000001
 ipv6 address FE80::A link-local
 ipv6 address 2001::A/125
 ipv6 traffic-filter Inside_IPv6 in
!



interface trunked
 switchport mode trunk
 switchport trunk allowed vlan 1,4,7,9-11
 switchport trunk allowed vlan add 13
!


ip access-list extended example_out
 permit tcp host 127.0.0.1 host 127.0.0.2
 permit tcp host 127.0.0.1 127.0.0.0 0.0.0.255
 permit tcp host 127.0.0.1 host 127.0.0.1 eq 80
 permit tcp any any log-input
 permit tcp any any established log B
 permit tcp any any log-input PREFIX
 permit tcp any any established log PREFIX

!

ip access-list extended BLOCK_PRIV_ADDRS
 deny   ip any 10.0.0.0 0.255.255.255
 deny   ip any 172.16.0.0 0.15.255.255
 deny   ip any 192.168.0.0 0.0.255.255
 deny   ip 10.0.0.0 0.255.255.255 any
 deny   ip 172.16.0.0 0.15.255.255 any
 deny   ip 192.168.0.0 0.0.255.255 any
 permit tcp any any neq telnet log-input
 permit ip any any

ip access-list extended INTERNET_IN
 remark *** Allowed Traffic ***
 remark *** Deny Traffic Not Permited By IOS Stateful-Firewall ***
 deny   ip any any

ip access-list extended MGMT
 permit ip 0.0.0.24 255.255.255.224 any
 deny   ip any any

ip access-list extended NAT_ACL
 deny   ip 192.168.0.0 0.0.0.255 192.168.0.0 0.0.0.255
" ++
  u " permit ip 192.168.0.0 0.0.0.255 any
 deny   ip any any

ip access-list standard 2
 25 permit 172.16.1.7
 15 permit 172.16.1.16

access-list 1 remark SDM_ACL Category=1
access-list 1 permit 192.168.0.0 0.0.0.255
access-list 1 deny 192.168.0.1
access-list 102 remark SDM_ACL Category=20
access-list 102 permit ip host 192.168.0.30 any log A
access-list 102 permit ip any any log A
access-list 102 permit tcp any any eq www log A
access-list 102 permit tcp any any eq domain log
access-list 102 permit udp any any eq domain log

ip access-list standard RoutesAllowed
 remark Default Route
 permit 0.0.0.0
 remark 127.0.0.0/16
 permit 127.0.0.0
 deny   any

access-list 101 deny   tcp any any range 0 65535 log-input


ipv6 access-list proto_ipv6
 sequence 5 permit ipv6 FD00::/64 any
 sequence 10 permit ipv6 2000::/3 2000::/3
 sequence 20 permit ipv6 2000::/3 host 2001::102
 sequence 30 permit ipv6 host 2001::102 host 2000::
 sequence 170 deny ipv6 any 2001::/125
 sequence 180 permit ipv6 2001::/48 any
 sequence 190 deny ipv6 any any

ipv6 access-list proto_tcp
 sequence 60 permit tcp host FE80::156:0 host FE80::156:1 eq bgp
 sequence 70 permit tcp host FE80::156:0 eq bgp host FE80::156:1

ipv6 access-list proto_icmp
 sequence 50 permit icmp any any nd-na
 sequence 60 permit icmp any any nd-ns
 sequence 100 permit icmp 2000::/3 2000::/3 echo-request
 sequence 110 permit icmp 2000::/3 2000::/3 echo-reply
 sequence 150 permit icmp any any nd-na
 sequence 160 permit icmp any any nd-na


ip route profile
" ++
  u "ip route 10.0.1.0 255.255.255.0 127.0.0.1
ip route 10.0.1.0 255.255.255.0 Example_If


banner motd 





banner test

banner motd ^Cbanner test 2^C




object-group network RFC5735
 description Special-Use IPv4 Addresses
 0.0.0.0 255.0.0.0
!



object-group network host
 description Special-Use IPv4 Addresses
 host 1.1.1.1
!






object-group service pingpong
 description icmp echo request & response
 icmp echo
 icmp echo-reply
!



ip access-list extended Inside
 80 remark from the outerlands
 80 deny ip 1.1.1.1 0.0.0.255 any
!
".
Example corpus_ios : Forall (fun t => reads (ios_outcome t)) [ios_interface_ipv6; ios_ipv6_access_list; ios_interface_switchport_trunk; ios_object_group_network; ios_object_group_network_host; ios_object_group_service_icmp; ios_ip_access_list; ios_whole].
Proof. repeat (apply Forall_cons; [vm_compute; exact I|]). apply Forall_nil. Qed.

(** cafTestParse and cafTestRun: tests/caf/*.caf *)
Definition caf_README : pystr :=
  u "/* we want all rules matching 10.1.0.0/24 on ids outside_in and inside_in
   without the rules matching any any
   without the rules which apply for 10.2.0.0/24
*/
(
    /* rules for 10.1.0.0/24 */
    (
        id outside_in
        ip dst 10.1.0.0/24
    )
    union
    (
        id inside_in
        ip src 10.1.0.0/24
    )
)
except
(
    (   /* any any */
        ip src ANY
        ip dst ANY
    )
)
except
(
    ip dst 10.2.0.0/24
    union
    ip src 10.2.0.0/24
)
".
Definition caf_any : pystr :=
  u "ip src any
union
ip dst any
union
ip src any4
union
ip dst any4
union
ip src any6
union
ip dst any6
union
ip src ANY
union
ip dst ANY
union
ip src ANY4
union
ip dst ANY4
union
ip src ANY6
union
ip dst ANY6
".
Definition caf_comments : pystr :=
  u "/* 0 */
/* 0b */
(
/* 1 */
    (
/* 2 */
/* 2b */
        id A
/* 3 */
/* 3b */
        ip dst 127.0.0.1
/* 4 */
/* 4b */
    )
/* 6 */
/* 6b */
    union
    (
/* 7 */
/* 7b */
        id B
/* 7c */
/* 7d */
        ip src 127.0.0.1
/* 7e */
/* 7f */
    )
/* 7g */
/* 7h */
)
/* 8 */
/* 8a */
except
/* 9 */
/* 9a */
ip src ANY
/* 10 */
/* 10a */
ip dst ANY
/* 11 */
/* 11a */
".
Definition caf_empty_id : pystr :=
  u "id
".
Definition caf_fnmatch_id : pystr :=
  u "id /?IF0380/
union
id /OIF*/
union
id /*IF*/
union
id /*1*/
union
id /[OI]IF*/
union
id test

".
Definition caf_localhosts : pystr :=
  u "ip src 127.0.0.2
union
ip dst 127.0.0.2
except
ip src ANY
ip dst ANY".
Definition caf_multi_addr : pystr :=
  u "ip src 127.0.0.0/24 127.0.0.1 127.0.0.0/25
ip src 127.0.1.0/24".
Definition caf_multi_id : pystr :=
  u "id A
id B
".
Definition caf_nested : pystr :=
  u "(
    (
        (
            id A
        )
        union
        (
            (
                (
                    ( id D )
                )
            )
        )
    )
    intersect
    (
        id B
        union
        id C
    )
    except
    id D
)
".
Definition caf_single : pystr :=
  u "id A".
Definition caf_v6 : pystr :=
  u "(ip src fe80::/64 ip dst ANY6 union ip dst fe80::/64 ip src ANY6)
except
(ip dst any6 union ip dst any6)
except
(ip src :: ip dst ::1)
union
ip src fe80:: union ip dst fe80::".
Example corpus_good : Forall (fun t => caf_outcome t = Ok tt) [caf_README; caf_any; caf_comments; caf_fnmatch_id; caf_localhosts; caf_multi_addr; caf_nested; caf_single; caf_v6].
Proof. repeat (apply Forall_cons; [lazy; reflexivity|]). apply Forall_nil. Qed.
Example corpus_refused : Forall (fun t => caf_outcome t = Err FailedParse) [caf_multi_id; caf_empty_id].
Proof. repeat (apply Forall_cons; [lazy; reflexivity|]). apply Forall_nil. Qed.

(** cafTestFilter: the rules a filter selects, by their ids; [rules_by_id] is the tests' own
    helper, assertCountEqual compares without regard to order. *)
Definition caf_tpl : pystr :=
  u "names
name 1.1.1.1 caf1
name 2.2.2.2 caf2
!

object network NetworkObjectHost1
 host 1.1.1.1

object network NetworkObjectHost2
 host 2.2.2.2

object-group network NetworkGroup1
 network-object host 1.1.1.1
 network-object 1.1.1.1 255.255.255.0

object-group network NetworkGroup2
 network-object host 2.2.2.2
 network-object 2.2.2.2 255.255.255.0

object-group network NetworkGroupNested1
 group-object NetworkGroup1

object-group network NetworkGroupNested2
 group-object NetworkGroup2

object-group network NetworkGroup7
 network-object host 1.1.1.1

access-list caf_filter_0 extended permit ip host 1.1.1.1 host 2.2.2.2
access-list caf_filter_1 extended permit ip host caf1 host caf2
access-list caf_filter_2 extended permit ip caf1 255.255.255.0 caf2 255.255.255.0
access-list caf_filter_3 extended permit ip object NetworkObjectHost1 object NetworkObjectHost2
access-list caf_filter_4 extended permit ip object-group NetworkGroup1 object-group NetworkGroup2
access-list caf_filter_5 extended permit ip object-group NetworkGroupNested1 object-group NetworkGroupNested2

access-list caf_filter_61 extended permit ip host 1.1.1.1 host 2.2.2.2
access-list caf_filter_62 extended permit ip any any
access-list caf_filter_62 extended permit ip any4 any
access-list caf_filter_62 extended permit ip any6 any

access-list caf_filter_7 extended permit ip object-group NetworkGroup7 host 1.1.1.1".
Definition id_of (i : item) : option pystr := match i with Rules.IRule r => r_id r | Rules.INat _ => None end.
Definition id_in (ids : list pystr) (o : option pystr) : bool := match o with Some s => existsb (str_eqb s) ids | None => false end.
Definition made_of (r : result (list command * list made * tables)) : list made * tables := match r with Ok (_, ms, T) => (ms, T) | Err _ => ([], no_tables) end.
Definition caf_parsed : list made * tables := Eval vm_compute in
  made_of (FileText.parse_file ascii_alpha ascii_alnum ascii_space C52_int caf_tpl).
Lemma caf_parsed_eq : exists cs, FileText.parse_file ascii_alpha ascii_alnum ascii_space C52_int caf_tpl = Ok (cs, fst caf_parsed, snd caf_parsed).
Proof. eexists. vm_compute. reflexivity. Qed.
(** [cfg.run(acls.rules)] and [rules_by_id] *)
Definition run_on (T : tables) (ms : list made) (query : pystr) : result (list iid) :=
  match caf_read ascii_alpha ascii_alnum ascii_space (snd (w_net (tb_world T))) query with
  | Ok (h, c) => caf_run 20 h (item_at ms) c (Config.c_rules (config_of ms))
  | Err e => Err e
  end.
Definition rules_by_id (ms : list made) (ids : list pystr) : list iid :=
  filter (fun x => id_in ids (id_of (item_at ms x))) (Config.c_rules (config_of ms)).
Definition selects (query : pystr) (ids : list pystr) : bool :=
  match run_on (snd caf_parsed) (fst caf_parsed) query with
  | Ok l => (Nat.eqb (List.length l) (List.length (rules_by_id (fst caf_parsed) ids)) && forallb (fun x => existsb (Nat.eqb x) l) (rules_by_id (fst caf_parsed) ids))%bool
  | Err _ => false
  end.
Example corpus_filter :
  forallb (fun p => selects (fst p) (snd p))
    [(u "id caf_filter_", [u "caf_filter_"]);
     (u "id caf_filter_0 ip src 1.1.1.1 ip dst 2.2.2.2", [u "caf_filter_0"]);
     (u "id caf_filter_0 ip src 1.1.1.2 ip dst 2.2.2.2", [u "caf_filter_"]);
     (u "id caf_filter_0 ip src 1.1.1.1 ip dst 2.2.2.3", [u "caf_filter_"]);
     (u "id caf_filter_1 ip src 1.1.1.1 ip dst 2.2.2.2", [u "caf_filter_1"]);
     (u "id caf_filter_1 ip src 1.1.1.2 ip dst 2.2.2.2", [u "caf_filter_"]);
     (u "id caf_filter_1 ip src 1.1.1.1 ip dst 2.2.2.3", [u "caf_filter_"]);
     (u "id caf_filter_2 ip src 1.1.1.2 ip dst 2.2.2.3", [u "caf_filter_2"]);
     (u "id caf_filter_2 ip src 1.1.2.2 ip dst 2.2.2.3", [u "caf_filter_"]);
     (u "id caf_filter_2 ip src 1.1.1.2 ip dst 2.2.3.3", [u "caf_filter_"]);
     (u "id caf_filter_3 ip src 1.1.1.1 ip dst 2.2.2.2", [u "caf_filter_3"]);
     (u "id caf_filter_3 ip src 1.1.2.2 ip dst 2.2.2.3", [u "caf_filter_"]);
     (u "id caf_filter_3 ip src 1.1.1.2 ip dst 2.2.3.3", [u "caf_filter_"]);
     (u "id caf_filter_4 ip src 1.1.1.2 ip dst 2.2.2.3", [u "caf_filter_4"]);
     (u "id caf_filter_4 ip src 1.1.2.2 ip dst 2.2.2.3", [u "caf_filter_"]);
     (u "id caf_filter_4 ip src 1.1.1.2 ip dst 2.2.3.3", [u "caf_filter_"]);
     (u "id caf_filter_5 ip src 1.1.1.2 ip dst 2.2.2.3", [u "caf_filter_5"]);
     (u "id caf_filter_5 ip src 1.1.2.2 ip dst 2.2.2.3", [u "caf_filter_"]);
     (u "id caf_filter_5 ip src 1.1.1.2 ip dst 2.2.3.3", [u "caf_filter_"]);
     (u "id caf_filter_5 ip src 1.1.1.0/24 ip dst 2.2.2.0/24", [u "caf_filter_5"]);
     (u "id caf_filter_5 intersect id caf_filter_5", [u "caf_filter_5"]);
     (u "id caf_filter_5 intersect id caf_filter_", [u "caf_filter_"]);
     (u "id caf_filter_5 union id caf_filter_4", [u "caf_filter_5"; u "caf_filter_4"]);
     (u "id caf_filter_5 union id caf_filter_", [u "caf_filter_5"]);
     (u "id /caf_filter_[012345]/ except id /caf_filter_[01234]/", [u "caf_filter_5"]);
     (u "id caf_filter_5 except id caf_filter_", [u "caf_filter_5"]);
     (u "id /caf_filter_6[12]/ except (ip src ANY ANY4 ANY6 union ip dst ANY ANY4 ANY6)", [u "caf_filter_61"]);
     (u "id caf_filter_62 ip src ANY ANY4 ANY6 ip dst ANY ANY4 ANY6", [u "caf_filter_62"])] = true.
Proof. lazy. reflexivity. Qed.

(** test_filter_7: [g.objects = [...]] for the group NetworkGroup7. *)
Definition group7 : option gid :=
  match find (fun g => str_eqb (g_name (h_get (snd (w_net (tb_world (snd caf_parsed)))) g)) (u "NetworkGroup7")) (seq 0 (h_next (snd (w_net (tb_world (snd caf_parsed)))))) with Some g => Some g | None => None end.
Definition with_member (x : host) : tables :=
  let T := snd caf_parsed in let w := tb_world T in let h := snd (w_net w) in
  match group7 with
  | Some g => mktables (tb_names T) (tb_netobj T) (tb_svcobj T) (mkworld (fst (w_net w), set_objs h g [x]) (w_port w) (w_service w) (w_proto w) (w_icmp w)) (tb_time T) (tb_if T) (tb_count T)
  | None => T
  end.
Definition selects7 (x : host) (query : pystr) : result (list (option pystr)) :=
  match run_on (with_member x) (fst caf_parsed) query with Ok l => Ok (map (fun i => id_of (item_at (fst caf_parsed) i)) l) | Err e => Err e end.
Example corpus_filter_7 :
  selects7 (HLeaf LAny) (u "id caf_filter_7 ip src ANY") = Ok [Some (u "caf_filter_7")] /\
  selects7 (HLeaf LAny) (u "id caf_filter_7 except ip src ANY") = Ok [] /\
  selects7 (HLeaf LAny4) (u "id caf_filter_7 except ip src ANY4") = Ok [] /\
  selects7 (HLeaf LAny6) (u "id caf_filter_7 except ip src ANY6") = Ok [].
Proof. repeat (split; [lazy; reflexivity|]). lazy; reflexivity. Qed.

(** cafTestRun: every filter of tests/caf runs on the rules of fwsm.jinja2, and what it selects
    is resolved; test_expand: the groups are expanded. *)
Definition asa_config (t : pystr) : result aclconfig :=
  match FileText.parse_file ascii_alpha ascii_alnum ascii_space C52_int t with Ok (cs, ms, T) => Ok (CAsa cs ms T) | Err e => Err e end.
Definition ast (s : pystr) : option CafText.cexpr := match p_grammar ascii_alpha ascii_alnum ascii_space s with Ok e => Some e | Err _ => None end.
Definition asts := Eval lazy in map ast [caf_README; caf_any; caf_comments; caf_fnmatch_id; caf_localhosts; caf_multi_addr; caf_nested; caf_single; caf_v6].
Lemma asts_eq : asts = map ast [caf_README; caf_any; caf_comments; caf_fnmatch_id; caf_localhosts; caf_multi_addr; caf_nested; caf_single; caf_v6].
Proof. lazy. reflexivity. Qed.
Definition run_resolved (c : aclconfig) (e : CafText.cexpr) : bool :=
  match eval_expr (config_groups c) e with
  | Ok (h, v) =>
      match caf_run 60 h (c_get c) (wrap v) (c_rules c) with
      | Ok l => match C73_run c l with Ok _ => true | Err _ => false end
      | Err _ => false
      end
  | Err _ => false
  end.
Definition expands (c : aclconfig) : bool := match acl_expand 60 c with Ok _ => true | Err _ => false end.
Definition holds_for (r : result aclconfig) : bool :=
  match r with
  | Ok c => (forallb (fun e => match e with Some e => run_resolved c e | None => false end) asts && expands c)%bool
  | Err _ => false
  end.
Example corpus_run : holds_for (asa_config asa_whole) = true.
Proof. vm_compute. reflexivity. Qed.

(** aclTestObjects.test_NetworkWildcard *)
Example corpus_wildcard :
  let n := HLeaf (LWild (mkaddr V4 2130706432) (mkaddr V4 254)) in let h := mkheap (fun _ => mkgroup [] [] [] []) 0 in
  and_ 10 h n (HLeaf (LHost (mkaddr V4 2130706434))) = Ok true /\
  and_ 10 h n (HLeaf (LHost (mkaddr V4 2130706433))) = Ok false /\
  and_ 10 h n (HLeaf (LNet (mknet V4 2130706432 31))) = Ok true /\
  and_ 10 h n (HLeaf (LNet (mknet V4 2130706433 32))) = Ok false.
Proof. repeat split; vm_compute; reflexivity. Qed.
