*.vo
*.vos
*.vok
*.glob
.*.aux
Makefile
Makefile.conf
.Makefile.d
.lia.cache
