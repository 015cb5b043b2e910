*.vo
*.vos
*.vok
*.glob
*.aux
.lia.cache
.nra.cache
Makefile
Makefile.conf
.Makefile.d
.*.cache
