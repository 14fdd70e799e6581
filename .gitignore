*.vo
*.vos
*.vok
*.glob
.*.aux
.coqdeps.d
Makefile
Makefile.conf
.Makefile.d
.nra.cache
.lia.cache
*.cache
